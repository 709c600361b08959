(** The tables of a whole execution: CPU, ADD, XOR, shift, and the lookups that tie every step to the skeleton and the program. *)
From Coq Require Import Sorting.Permutation.
From Verif Require Import ProofGenSpec ProofGenTables RegGenModel RegGenLook RegGenRun MemGenProofs MemGenRun StateSpec DeviceSpec DeviceProofs TableProofs CpuTrace CpuComplete CpuGen StateProofs WordProofs StepProofs ExecProofs RunProofs WordProps PoseidonSpec PoseidonGen DeviceProps CircuitProps.
Open Scope Z_scope.

Lemma one_mult v t t' f : tuple_key t = tuple_key t' -> mult_of v [(t, f)] = mult_of v [(t', f)].
Proof. intros E. rewrite !mult_of_cons, E. reflexivity. Qed.
Lemma elsewhere s i : handled_elsewhere s i = match iop i with ADD => true | _ => blt_test s i end.
Proof. unfold handled_elsewhere, blt_test. destruct (iop i); rewrite ?andb_false_r, ?andb_true_r; reflexivity. Qed.
(** each step has its row in exactly one of the three tables *)
Lemma rows_mult v (fc : cpu -> list Z * Z) (fa : add_row -> list Z * Z) (fb : blt_row -> list Z * Z) (E : exec_row -> list Z * Z) (rows : list exec_row) :
  snd (fc pad_row) = 0 -> snd (fa add_default) = 0 -> snd (fb blt_default) = 0 ->
  (forall s i a, In (s, i, a) rows -> handled_elsewhere s i = false -> mult_of v [fc (gen_row s i a)] = mult_of v [E (s, i, a)]) ->
  (forall s i a, In (s, i, a) rows -> iop i = ADD -> mult_of v [fa (add_row_of s i a)] = mult_of v [E (s, i, a)]) ->
  (forall s i a, In (s, i, a) rows -> iop i = BLTU -> blt_test s i = true -> mult_of v [fb (blt_row_of s i)] = mult_of v [E (s, i, a)]) ->
  mult_of v (map fc (generate_cpu_trace rows)) + mult_of v (map fa (add_rows rows)) + mult_of v (map fb (blt_rows rows)) = mult_of v (map E rows).
Proof.
  intros ZC ZA ZB HC HA HB. unfold generate_cpu_trace, add_rows, blt_rows. rewrite !mult_pad by assumption. clear ZC ZA ZB. induction rows as [|[[s i] a] rows IH]; [reflexivity|].
  assert (IH0 := IH ltac:(intros; apply HC; auto; right; assumption) ltac:(intros; apply HA; auto; right; assumption) ltac:(intros; eapply HB; eauto; right; eassumption)). clear IH.
  specialize (HC s i a (or_introl eq_refl)). specialize (HA s i a (or_introl eq_refl)). specialize (HB s i a (or_introl eq_refl)).
  cbn [List.filter flat_map]. rewrite !map_app, !mult_of_app. change (map E ((s, i, a) :: rows)) with ([E (s, i, a)] ++ map E rows). rewrite mult_of_app, <- IH0. pose proof (elsewhere s i) as EQ.
  assert (C0 : forall x l, mult_of v (x :: l) = mult_of v [x] + mult_of v l) by (intros x l; change (x :: l) with ([x] ++ l); apply mult_of_app).
  assert (BT : iop i <> BLTU -> blt_test s i = false) by (intros N; unfold blt_test; destruct (iop i); try congruence; apply andb_false_r).
  destruct (handled_elsewhere s i) eqn:H; cbn [negb].
  - destruct (iop i) eqn:O; try (rewrite BT in EQ by discriminate; discriminate EQ).
    + rewrite BT by discriminate. cbn [map app]. rewrite (HA eq_refl). change (mult_of v []) with 0. lia.
    + rewrite <- EQ. cbn [map app]. rewrite (HB eq_refl (eq_sym EQ)). change (mult_of v []) with 0. lia.
  - cbn [map]. rewrite C0, (HC eq_refl).
    assert (BF : blt_test s i = false) by (destruct (iop i); try discriminate EQ; congruence). rewrite BF. cbn [map]. change (mult_of v []) with 0.
    assert (AF : match iop i with ADD => [add_row_of s i a] | _ => [] end = []) by (destruct (iop i); try discriminate EQ; reflexivity). rewrite AF. cbn [map]. change (mult_of v []) with 0. lia.
Qed.
(** ** The skeleton's windows *)
Lemma skel_windows v (y : skel) (R Z0 : list skel) : sk_running y = 0 -> (forall r, In r R -> sk_running r = 0) -> forall A,
  mult_of v (map (fun '(lv, nv) => ([sk_clk lv; sk_pc lv; sk_pc nv; 1 - sk_running nv], sk_running lv)) (combine (A ++ y :: R) (tail (A ++ y :: R) ++ Z0)))
  = mult_of v (map (fun '(lv, nv) => ([sk_clk lv; sk_pc lv; sk_pc nv; 1 - sk_running nv], sk_running lv)) (combine A (tail (A ++ [y])))).
Proof.
  intros Y HR. induction A as [|a A IH].
  - cbn [app]. transitivity 0; [|reflexivity]. apply mult_of_zero. intros e I. apply in_map_iff in I as ([lv nv] & <- & I). apply in_combine_l in I as [<-|I]; [exact Y|]. cbn. apply HR, I.
  - cbn [app tail] in *. destruct A as [|b A].
    + cbn [app combine map tail] in *. rewrite !mult_of_cons. rewrite IH. reflexivity.
    + cbn [app tail] in *. cbn [combine map]. cbn [combine map] in IH. rewrite !(mult_of_cons v [sk_clk a; _; _; _]). f_equal. exact IH.
Qed.
Definition nexts (rec : record) : list state := tail (map rstate (executed rec)) ++ [last_state rec].
Lemma nexts_length rec : executed rec <> [] -> length (nexts rec) = length (executed rec).
Proof. unfold nexts. destruct (executed rec) as [|r l]; [congruence|]. intros _. cbn [map tail]. rewrite app_length, map_length. cbn. lia. Qed.
Lemma nexts_at rec k : (k < length (executed rec))%nat -> nexts rec !! k = state_at rec (S k).
Proof.
  intros L. unfold nexts, state_at. destruct (executed rec) as [|r l]; [cbn in L; lia|]. cbn [map tail length] in *. change ((r :: l) !! S k) with (l !! k). change (S k =? S (length l))%nat with (k =? length l)%nat. destruct (l !! k) as [r'|] eqn:E.
  - rewrite lookup_app_l by (rewrite map_length; apply lookup_lt_Some in E; exact E). rewrite list_lookup_fmap, E. reflexivity.
  - apply lookup_ge_None in E. assert (k = length l) as -> by lia. rewrite lookup_app_r by (rewrite map_length; lia). rewrite map_length, Nat.sub_diag, Nat.eqb_refl. reflexivity.
Qed.
Lemma combine_map_l {A B C} (f : A -> B) (l : list A) (l' : list C) : combine (map f l) l' = map (fun '(x, y) => (f x, y)) (combine l l').
Proof. revert l'. induction l as [|x l IH]; intros [|y l']; cbn; auto. f_equal. apply IH. Qed.
Lemma combine_map_r {A B C} (f : C -> B) (l : list A) (l' : list C) : combine l (map f l') = map (fun '(x, y) => (x, f y)) (combine l l').
Proof. revert l'. induction l as [|x l IH]; intros [|y l']; cbn; auto. f_equal. apply IH. Qed.
Lemma take_distinct : forall rom counts, List.NoDup (map ro_pc rom) ->
  take_counts counts rom = map (fun r => mkMult (ro_pc r) (ro_data r) (Z.of_nat (length (List.filter (Z.eqb (ro_pc r)) counts)))) rom.
Proof.
  induction rom as [|r rom IH]; intros counts N; [reflexivity|]. cbn [take_counts map]. inversion N as [|? ? N1 N2]; subst. f_equal. rewrite IH by exact N2. apply map_ext_in. intros x I. do 3 f_equal.
  induction counts as [|c counts IHc]; [reflexivity|]. cbn [List.filter]. destruct (Z.eqb_spec (ro_pc r) c) as [E|E]; cbn [negb List.filter].
  - destruct (Z.eqb_spec (ro_pc x) c) as [E'|E']; [|exact IHc]. exfalso. apply N1. rewrite E, <- E'. apply in_map, I.
  - destruct (ro_pc x =? c); [f_equal|]; exact IHc.
Qed.

(** ** One execution *)
Section WithRun.
Variable permute : list Z -> list Z.
Variable utf8_ok : list Z -> bool.
Variables (limit : option Z) (p : program) (fuel : nat) (t : raw_tapes) (rec : record).
Hypothesis GP : good_program p.
Hypothesis GT : good_tapes t.
Hypothesis DC : decoded_code p.
Hypothesis RUN : step permute utf8_ok limit p fuel (state_new p t) = Ok rec.
Let rows := run_rows rec.
Hypothesis PR : forall s i a, In (s, i, a) rows -> provable_step s i.
Hypothesis SHORT : Z.of_nat (length rows) <= 2 ^ 30 - 2.

Lemma decoded_plain : forall a i, ro_code p !! a = Some (inl i) -> no_dest i.
Proof.
  intros a i E. destruct (DC a i E) as (rv & _ & ->). unfold no_dest.
  destruct rv as [o ? ? ?|o ? ? ?|o ? ? ?|w us ? ? ?|w ? ? ?|c ? ? ?|? ?|? ?|? ?|? ? ?|? ?|? ?|? ?|? ? ? ?|?]; cbn; try discriminate; try reflexivity; try (destruct o; cbn; discriminate || reflexivity); try (destruct w, us; cbn; discriminate || reflexivity); try (destruct w; cbn; reflexivity); try (destruct c; cbn; reflexivity).
Qed.
Lemma row_step s i a : In (s, i, a) rows -> exists s' rv, execute_instruction permute utf8_ok s p = Ok (a, i, s') /\ state_ok s /\ clk s mod P = clk s /\ clk s < 2 ^ 32 /\
  ro_code p !! pc s = Some (inl i) /\ rv_ok rv /\ i = lower (pc s) rv /\ provable_step s i /\ new_pc a = pc s' /\
  b2z (halted s') = b2z (bool_decide (iop i = ECALL) && (reg s REG_A0 =? 0)).
Proof.
  intros I. destruct (row_facts _ _ _ _ _ _ _ GP GT RUN s i a I) as (k & s' & EK & C & L & _ & _ & X & OK & _). fold rows in L.
  destruct (execute_inv _ _ s p a i s' OK (good_program_ok _ GP) X) as (Q & _ & a0 & s0 & _ & F & ES & W & EA). destruct (DC _ _ Q) as (rv & RV & LW). exists s', rv. split; [exact X|]. split; [exact OK|].
  split; [apply Z.mod_small; unfold P; lia|]. split; [lia|]. split; [exact Q|]. split; [exact RV|]. split; [exact LW|]. split; [eapply PR; exact I|]. split; [rewrite EA; reflexivity|].
  assert (H0 : halted s = false). { destruct (run_record permute utf8_ok limit p fuel _ rec (state_new_ok p t GP GT) (good_program_ok _ GP) RUN) as (_ & HR & _). destruct (HR k _ EK) as (H0 & _). exact H0. }
  rewrite ES. change (halted (bump_clock s0)) with (halted s0). rewrite (fr_halt _ _ _ F), H0, W, orb_false_r. destruct (iop i); reflexivity.
Qed.
(** ** CPU table *)
Lemma cpu_ok r : In r (generate_cpu_trace rows) -> cpu_row_ok r /\ all_zero (cpu_transition r).
Proof.
  intros I. apply cpu_rows in I as [-> |(s & i & a & I & H & ->)]; [apply C25_padding_row|]. destruct (row_step s i a I) as (s' & rv & X & OK & _ & _ & _ & RV & LW & PS & _). exact (C25_honest_row_partial _ _ s p a i s' rv OK GP X LW RV H PS).
Qed.
Lemma cpu_sat : trace_sat cpu_air (generate_cpu_trace rows).
Proof.
  constructor; cbn [cpu_air a_first a_always a_transition a_last]; try (intros; apply List.Forall_nil); [apply padded_nonempty| |].
  - intros k r r' E _. apply (ro_always _ (proj1 (cpu_ok r (lookup_In _ _ _ E)))).
  - intros k r r' E _. apply (proj2 (cpu_ok r (lookup_In _ _ _ E))).
Qed.
Lemma cpu_rc v f : In ([v], f) (cpu_rc_looking (generate_cpu_trace rows)) -> ~ fzero f -> u32 (v mod P).
Proof.
  unfold cpu_rc_looking. intros I. apply in_flat_map in I as (r & I & J). apply in_map_iff in J as ([v' f'] & [= <- <-] & J). pose proof (ro_rc _ (proj1 (cpu_ok r I))) as F. rewrite List.Forall_forall in F. exact (F _ J).
Qed.
(** ** ADD table *)
Lemma add_ok r : In r (add_rows rows) -> all_zero (add_constraints r) /\ u32 (ad_dst r).
Proof.
  intros I. apply add_rows_in in I as [-> |(s & i & a & I & O & ->)]; [split; [repeat constructor|unfold u32; cbn; lia]|]. destruct (row_step s i a I) as (s' & rv & X & OK & _ & C & _ & RV & LW & _).
  destruct (C20_add_complete _ _ s p a i s' rv OK GP X LW RV O) as [H _]. destruct (H C) as (r & E & H1 & H2 & _). unfold gen_add_row in E. rewrite (proj2 (Z.ltb_lt _ _) C) in E. injection E as <-. auto.
Qed.
Lemma add_sat : trace_sat add_air (add_rows rows).
Proof.
  constructor; cbn [add_air a_first a_always a_transition a_last]; try (intros; apply List.Forall_nil); [apply padded_nonempty|]. intros k r r' E _. apply (proj1 (add_ok r (lookup_In _ _ _ E))).
Qed.
(** ** XOR table *)
Lemma xor_values r : In r (generate_cpu_trace rows) -> u32 (c_xor_a r) /\ u32 (c_xor_b r) /\ c_xor_out r = Z.lxor (c_xor_a r) (c_xor_b r) /\ bit (ops_that_use_xor r) /\ bit (ops_that_shift r).
Proof.
  intros I. apply cpu_rows in I as [-> |(s & i & a & I & H & ->)]; [cbn; unfold u32, bit; split; [lia|]; split; [lia|]; auto|]. destruct (row_values _ _ _ _ _ _ _ GP GT RUN s i a I) as (R1 & R2 & _ & _ & OK).
  pose proof (reg_u32 s _ OK R1) as U1. assert (G : c_xor_a (gen_row s i a) = fst (gen_xor i (freg s (rs1 (iargs i))) (freg s (rs2 (iargs i)))) /\ c_xor_b (gen_row s i a) = snd (gen_xor i (freg s (rs1 (iargs i))) (freg s (rs2 (iargs i)))) /\ c_xor_out (gen_row s i a) = Z.lxor (c_xor_a (gen_row s i a)) (c_xor_b (gen_row s i a))).
  { unfold gen_row. destruct (gen_product _ _) as [[? ?] ?]. destruct (gen_div _ _ _ _ _) as [[[[[? ?] ?] ?] ?] ?]. auto. }
  destruct G as (G1 & G2 & G3). split; [rewrite G1; unfold gen_xor; cbn [fst]; destruct (iop i); try exact U1; unfold u32; lia|]. split; [rewrite G2; unfold gen_xor; cbn [snd]; destruct (iop i); try apply wadd_u32; unfold u32; lia|]. split; [exact G3|].
  unfold ops_that_use_xor, ops_that_shift. rewrite !gen_ops. cbn [inst_cols i_ops]. destruct (iop i); cbn; unfold bit; auto.
Qed.
Lemma xor_sat : trace_sat xor_air (generate_xor_trace (generate_cpu_trace rows)).
Proof.
  constructor; cbn [xor_air a_first a_always a_transition a_last]; try (intros; apply List.Forall_nil); [apply padded_nonempty|]. intros k r r' E _. apply lookup_In, in_pad in E as [E| ->]; [|apply C27_xor_padding].
  apply in_map_iff in E as (q & <- & I). apply filter_In in I as [I _]. destruct (xor_values q I) as (U1 & U2 & -> & _). apply (C27_xor_complete _ _ U1 U2).
Qed.
Lemma xor_ctl : ctl_ok (xor_looking (generate_cpu_trace rows)) (xor_looked (generate_xor_trace (generate_cpu_trace rows))).
Proof.
  intros v. apply feq_zero. unfold xor_looked, generate_xor_trace. rewrite (mult_pad v (fun r => ([x_a r; x_b r; x_out r], x_exec r))) by reflexivity. rewrite map_map. unfold xor_looking.
  rewrite (mult_split v _ (fun r => ops_that_use_xor r mod P =? 1)). rewrite (mult_of_zero v (map _ (List.filter (fun x => negb _) _))).
  - rewrite Z.add_0_r. unfold feq. f_equal. apply mult_same. intros r I. apply filter_In in I as [I E]. destruct (xor_values r I) as (_ & _ & _ & [B|B] & _); rewrite B in *; [discriminate E|reflexivity].
  - intros e I. apply in_map_iff in I as (r & <- & I). apply filter_In in I as [I E]. destruct (xor_values r I) as (_ & _ & _ & [B|B] & _); cbn [snd]; rewrite B in *; [reflexivity|discriminate E].
Qed.
(** ** Shift table *)
Lemma shift_values r : In r (generate_cpu_trace rows) -> ops_that_shift r = 1 -> exists k, (k < 32)%nat /\ c_bs_amount r = Z.of_nat k /\ c_bs_multiplier r = 2 ^ Z.of_nat k.
Proof.
  intros I. apply cpu_rows in I as [-> |(s & i & a & I & H & ->)]; [discriminate|]. intros S. destruct (row_step s i a I) as (s' & rv & X & OK & _). destruct (exec_facts _ _ s p a i s' OK (good_program_ok _ GP) X) as (_ & _ & RAW & O2 & _).
  assert (G : c_bs_amount (gen_row s i a) = gen_shift_amount (op2 a) /\ c_bs_multiplier (gen_row s i a) = op2 a). { unfold gen_row. destruct (gen_product _ _) as [[? ?] ?]. destruct (gen_div _ _ _ _ _) as [[[[[? ?] ?] ?] ?] ?]. auto. }
  destruct G as [-> ->]. set (x := Z.land (wadd (reg s (rs2 (iargs i))) (imm (iargs i))) 31) in *.
  assert (E : op2 a = Z.shiftl 1 x). { rewrite O2. unfold op2_of. unfold ops_that_shift in S. rewrite !gen_ops in S. cbn [inst_cols i_ops] in S. destruct (iop i); try (cbn in S; discriminate S); reflexivity. }
  assert (B : 0 <= x < 32). { unfold x. change 31 with (Z.ones 5). rewrite Z.land_ones by lia. apply Z.mod_pos_bound. reflexivity. }
  exists (Z.to_nat x). rewrite Z2Nat.id by lia. rewrite E, Z.shiftl_1_l. split; [lia|]. split; [|reflexivity]. unfold gen_shift_amount. destruct (Z.eqb_spec (2 ^ x) 0) as [Z0|_]; [pose proof (Z.pow_pos_nonneg 2 x); lia|]. apply Z.log2_pow2. lia.
Qed.
Lemma shift_ctl : ctl_ok (shift_looking (generate_cpu_trace rows)) (shift_looked (generate_shift_trace (generate_cpu_trace rows))).
Proof.
  intros v. apply feq_zero. unfold feq. f_equal. set (cs := generate_cpu_trace rows). set (am := map c_bs_amount (List.filter (fun r => ops_that_shift r mod P =? 1) cs)).
  set (rom := map (fun k => mkRom (Z.of_nat k) (2 ^ Z.of_nat k)) (seq 0 32)).
  assert (E : shift_looked (generate_shift_trace cs) = mult_cpu_looked (take_counts am rom)).
  { rewrite take_distinct. { unfold mult_cpu_looked, shift_looked, generate_shift_trace, rom. rewrite !map_map. reflexivity. } unfold rom. rewrite map_map. cbn [ro_pc]. apply FinFun.Injective_map_NoDup; [intros x y; lia|apply seq_NoDup]. }
  rewrite E, (take_counts_mult v (fun k => 2 ^ k)).
  - unfold am. rewrite map_map. unfold shift_looking. rewrite (mult_split v _ (fun r => ops_that_shift r mod P =? 1)). rewrite (mult_of_zero v (map _ (List.filter (fun x => negb _) _))).
    + rewrite Z.add_0_r. apply mult_same. intros r I. apply filter_In in I as [I B]. destruct (xor_values r I) as (_ & _ & _ & _ & [B'|B']); rewrite B' in *; [discriminate B|]. destruct (shift_values r I B') as (k & _ & -> & ->). reflexivity.
    + intros e I. apply in_map_iff in I as (r & <- & I). apply filter_In in I as [I B]. destruct (xor_values r I) as (_ & _ & _ & _ & [B'|B']); cbn [snd]; rewrite B' in *; [reflexivity|discriminate B].
  - intros r I. unfold rom in I. apply in_map_iff in I as (k & <- & _). reflexivity.
  - intros c I. unfold am in I. apply in_map_iff in I as (r & <- & I). apply filter_In in I as [I B]. destruct (xor_values r I) as (_ & _ & _ & _ & [B'|B']); rewrite B' in *; [discriminate B|]. destruct (shift_values r I B') as (k & L & -> & _).
    exists (mkRom (Z.of_nat k) (2 ^ Z.of_nat k)). split; [|reflexivity]. unfold rom. apply in_map_iff. exists k. split; [reflexivity|]. apply in_seq. lia.
Qed.
(** ** Skeleton *)
Definition step_entry (x : exec_row) : list Z * Z := let '(s, i, a) := x in ([clk s; pc s; new_pc a; b2z (bool_decide (iop i = ECALL) && (reg s REG_A0 =? 0))], 1).
Lemma pc_add4 s : state_ok s -> pc s + 4 < 2 ^ 32 -> wadd (pc s) 4 = pc s + 4.
Proof. intros OK H. pose proof (ok_pc s OK) as U. unfold wadd, wrap32, u32 in *. apply Z.mod_small. lia. Qed.
Lemma skel_looking v : mult_of v (cpu_skeleton_looking (generate_cpu_trace rows) ++ add_skeleton_looking (add_rows rows) ++ blt_skeleton_looking (blt_rows rows)) = mult_of v (map step_entry rows).
Proof.
  rewrite !mult_of_app, Z.add_assoc. unfold cpu_skeleton_looking, add_skeleton_looking, blt_skeleton_looking. apply rows_mult; try reflexivity.
  - intros s i a I H. destruct (gen_fields s i a) as (-> & G2 & _ & _ & _ & ->). unfold c_pc. rewrite G2. cbn [inst_cols i_pc]. unfold step_entry.
    assert (G : c_new_pc (gen_row s i a) = new_pc a /\ c_ecall (gen_row s i a) e_halt = b2z (bool_decide (iop i = ECALL) && (reg s REG_A0 =? 0))). { unfold gen_row. destruct (gen_product _ _) as [[? ?] ?]. destruct (gen_div _ _ _ _ _) as [[[[[? ?] ?] ?] ?] ?]. auto. }
    destruct G as [-> ->]. destruct (row_step s i a I) as (_ & _ & _ & _ & -> & _). reflexivity.
  - intros s i a I O. cbn [add_row_of ad_clk ad_pc ad_running]. unfold step_entry. destruct (row_step s i a I) as (s' & rv & X & OK & _ & _ & _ & _ & _ & (_ & _ & _ & PS) & _). rewrite O in PS. specialize (PS ltac:(discriminate) ltac:(discriminate)).
    destruct (exec_facts _ _ s p a i s' OK (good_program_ok _ GP) X) as (IO & _ & _ & _ & a0 & s0 & D & _ & NP & _). unfold dispatch in D. rewrite O in D. apply disp_reg in D as (_ & PC0 & _); auto. rewrite NP, PC0, pc_add4, O by auto. reflexivity.
  - intros s i a I O T. cbn [blt_row_of bl_clk bl_pc bl_imm bl_running]. unfold step_entry. destruct (row_step s i a I) as (s' & rv & X & OK & _).
    destruct (exec_facts _ _ s p a i s' OK (good_program_ok _ GP) X) as (IO & _ & _ & _ & a0 & s0 & D & _ & NP & _). unfold dispatch in D. rewrite O in D. apply disp_branch in D as (PC0 & _); auto.
    unfold blt_test in T. apply andb_true_iff in T as [T _]. change (freg s) with (reg s) in T. rewrite T in PC0. rewrite NP, PC0, O. reflexivity.
Qed.
Lemma last_halted : halted (last_state rec) = true.
Proof. destruct (run_record permute utf8_ok limit p fuel _ rec (state_new_ok p t GP GT) (good_program_ok _ GP) RUN) as (H & _). exact H. Qed.
Lemma running r : In r (executed rec) -> halted (rstate r) = false.
Proof. intros I. apply In_lookup in I as [k E]. destruct (run_record permute utf8_ok limit p fuel _ rec (state_new_ok p t GP GT) (good_program_ok _ GP) RUN) as (_ & HR & _). apply (HR k r E). Qed.
Lemma some_step : executed rec <> [].
Proof.
  intros E. pose proof last_halted as H. unfold step in RUN. destruct (run_unfold _ utf8_ok _ _ _ _ _ RUN) as [[Q ->]|(_ & f' & a & i & s' & rec' & _ & _ & _ & -> & _)]; [discriminate Q|discriminate E].
Qed.
Lemma skel_shape : exists n, generate_skel_trace (map rstate (executed rec)) (last_state rec) = map gen_skel_row (map rstate (executed rec)) ++ gen_skel_row (last_state rec) :: repeat (gen_skel_row (last_state rec)) n.
Proof.
  unfold generate_skel_trace, pad_last, pad_with. rewrite map_app. cbn [map]. rewrite List.last_last, <- app_assoc. cbn [app]. eauto.
Qed.
Lemma skel_ctl : ctl_ok (cpu_skeleton_looking (generate_cpu_trace rows) ++ add_skeleton_looking (add_rows rows) ++ blt_skeleton_looking (blt_rows rows)) (skel_looked (generate_skel_trace (map rstate (executed rec)) (last_state rec))).
Proof.
  intros v. apply feq_zero. unfold feq. f_equal. rewrite skel_looking. destruct skel_shape as [n ->]. unfold skel_looked, windows.
  assert (Y : sk_running (gen_skel_row (last_state rec)) = 0) by (cbn; rewrite last_halted; reflexivity).
  rewrite skel_windows; [|exact Y|intros r I; apply repeat_spec in I; rewrite I; exact Y].
  assert (E : tail (map gen_skel_row (map rstate (executed rec)) ++ [gen_skel_row (last_state rec)]) = map gen_skel_row (nexts rec)).
  { unfold nexts. pose proof some_step as NE. destruct (executed rec) as [|r l]; [congruence|]. cbn [map app tail]. rewrite map_app. reflexivity. }
  rewrite E, combine_map_l, combine_map_r, combine_map_l, !map_map. unfold rows, run_rows. rewrite map_map.
  assert (G : forall l l', length l = length l' -> (forall k r s', l !! k = Some r -> l' !! k = Some s' -> In r (executed rec) /\ execute_instruction permute utf8_ok (rstate r) p = Ok (raux r, rinst r, s')) ->
    mult_of v (map (fun r => step_entry (rstate r, rinst r, raux r)) l) = mult_of v (map (fun x => let '(lv, nv) := let '(x0, y) := let '(x1, y0) := x in (rstate x1, y0) in (gen_skel_row x0, gen_skel_row y) in ([sk_clk lv; sk_pc lv; sk_pc nv; 1 - sk_running nv], sk_running lv)) (combine l l'))).
  { induction l as [|r l IH]; intros [|s' l'] L H; try discriminate L; [reflexivity|]. cbn [combine map]. destruct (H 0%nat r s' eq_refl eq_refl) as [I X].
    assert (J : In (rstate r, rinst r, raux r) rows) by (apply in_map_iff; eauto). destruct (row_step _ _ _ J) as (s'' & rv & X' & _ & C & _ & _ & _ & _ & _ & NP & HL). rewrite X in X'. injection X' as <-.
    unfold step_entry at 1. rewrite !mult_of_cons. f_equal.
    - unfold gen_skel_row. cbn [sk_clk sk_pc sk_running]. rewrite (running r I), NP, <- HL, C. cbn [negb b2z]. replace (1 - b2z (negb (halted s'))) with (b2z (halted s')) by (destruct (halted s'); reflexivity). reflexivity.
    - apply IH; [cbn in L; lia|]. intros k r0 s0 E1 E2. exact (H (S k) r0 s0 E1 E2). }
  etransitivity; [apply (G (executed rec) (nexts rec))|].
  - symmetry. apply nexts_length, some_step.
  - intros k r s' E1 E2. split; [apply lookup_In in E1; exact E1|]. destruct (run_record permute utf8_ok limit p fuel _ rec (state_new_ok p t GP GT) (good_program_ok _ GP) RUN) as (_ & HR & _). destruct (HR k r E1) as (_ & _ & s0 & SA & X).
    rewrite nexts_at in E2 by (apply lookup_lt_Some in E1; exact E1). rewrite SA in E2. injection E2 as <-. exact X.
  - f_equal. apply map_ext. intros [r s']. reflexivity.
Qed.
(** ** Program *)
Definition code_data (a : Z) : Z := match ro_code p !! a with Some (inl i) => inst_data (inst_cols a i) | _ => 0 end.
Definition rom_entry (x : exec_row) : list Z * Z := let '(s, _, _) := x in ([pc s; code_data (pc s)], 1).
Lemma rom_looking v : mult_of v (add_rom_looking (add_rows rows) ++ blt_rom_looking (blt_rows rows) ++ cpu_rom_looking (generate_cpu_trace rows)) = mult_of v (map rom_entry rows).
Proof.
  rewrite !mult_of_app. unfold cpu_rom_looking, add_rom_looking, blt_rom_looking.
  rewrite <- (rows_mult v (fun r => ([c_pc r; inst_data (c_inst r)], is_running r)) (fun r => ([ad_pc r; reduce_with_powers [0; 0; 0; ad_rs1 r; ad_rs2 r; ad_rd r; ad_imm r] (2 ^ 5)], ad_running r)) (fun r => ([bl_pc r; reduce_with_powers [22; 0; 0; bl_rs1 r; bl_rs2 r; 0; bl_imm r] (2 ^ 5)], bl_running r)) rom_entry rows); try reflexivity; [lia| | |].
  - intros s i a I H. destruct (gen_fields s i a) as (_ & G2 & _ & _ & _ & ->). unfold c_pc. rewrite G2. cbn [inst_cols i_pc]. unfold rom_entry, code_data. destruct (row_step s i a I) as (_ & _ & _ & _ & _ & _ & -> & _). reflexivity.
  - intros s i a I O. unfold rom_entry, code_data. destruct (row_step s i a I) as (_ & _ & _ & _ & _ & _ & -> & _). cbn [add_row_of ad_pc ad_rs1 ad_rs2 ad_rd ad_imm ad_running]. unfold inst_data, inst_cols. cbn [i_ops i_op1_signed i_op2_signed i_rs1 i_rs2 i_rd i_imm]. rewrite O. reflexivity.
  - intros s i a I O T. unfold rom_entry, code_data. destruct (row_step s i a I) as (_ & _ & _ & _ & _ & _ & Q & _). rewrite Q. pose proof (decoded_plain _ _ Q) as ND. unfold no_dest in ND. rewrite O in ND. specialize (ND eq_refl).
    cbn [blt_row_of bl_pc bl_rs1 bl_rs2 bl_imm bl_running]. unfold inst_data, inst_cols. cbn [i_ops i_op1_signed i_op2_signed i_rs1 i_rs2 i_rd i_imm]. rewrite O, ND. reflexivity.
Qed.
Lemma counts : map sk_pc (List.filter (fun r => negb (sk_running r mod P =? 0)) (generate_skel_trace (map rstate (executed rec)) (last_state rec))) = map (fun r => pc (rstate r)) (executed rec).
Proof.
  destruct skel_shape as [n ->]. rewrite List.filter_app, map_app. set (y := gen_skel_row (last_state rec)).
  assert (Y : forall k, List.filter (fun r => negb (sk_running r mod P =? 0)) (repeat y k) = []). { induction k as [|k IH]; [reflexivity|]. cbn [repeat List.filter]. unfold y at 1, gen_skel_row. cbn [sk_running]. rewrite last_halted. exact IH. }
  change (y :: repeat y n) with (repeat y (S n)). rewrite Y. cbn [map]. rewrite app_nil_r. rewrite map_map.
  assert (G : forall l, (forall r, In r l -> halted (rstate r) = false) -> map sk_pc (List.filter (fun r => negb (sk_running r mod P =? 0)) (map (fun x => gen_skel_row (rstate x)) l)) = map (fun r => pc (rstate r)) l).
  { induction l as [|r l IH]; intros H; [reflexivity|]. cbn [map List.filter]. unfold gen_skel_row at 1. cbn [sk_running]. rewrite (H r (or_introl eq_refl)). change (negb (b2z (negb false) mod P =? 0)) with true. cbv iota. cbn [map]. f_equal. apply IH. intros x I. apply H. right. exact I. }
  apply G, running.
Qed.
Lemma program_ctl rom : (forall r, In r rom <-> In r (rom_of p)) ->
  ctl_ok (add_rom_looking (add_rows rows) ++ blt_rom_looking (blt_rows rows) ++ cpu_rom_looking (generate_cpu_trace rows))
         (mult_cpu_looked (generate_program_mult_trace (generate_skel_trace (map rstate (executed rec)) (last_state rec)) rom)).
Proof.
  intros HR v. apply feq_zero. unfold feq. f_equal. rewrite rom_looking. unfold generate_program_mult_trace. rewrite counts, (take_counts_mult v code_data).
  - unfold rows, run_rows. rewrite !map_map. reflexivity.
  - intros r I. apply HR, rom_rows in I as (a & i & Q & ->). cbn [ro_pc ro_data]. unfold code_data. rewrite Q. reflexivity.
  - intros c I. apply in_map_iff in I as (r & <- & I). assert (J : In (rstate r, rinst r, raux r) rows) by (apply in_map_iff; eauto). destruct (row_step _ _ _ J) as (_ & _ & _ & _ & _ & _ & Q & _).
    exists (mkRom (pc (rstate r)) (inst_data (inst_cols (pc (rstate r)) (rinst r)))). split; [|reflexivity]. apply HR, rom_rows. eauto.
Qed.
End WithRun.
