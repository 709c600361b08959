(** C78: the register tables generated for an execution. *)
From Verif Require Import RegGenModel RegGenProofs RegGenLook RegGenRun MemGenModel MemGenProofs MemGenProps StateSpec DeviceSpec DeviceProofs StateProofs StateWitness WordProofs StepProofs ExecProofs RunProofs WordProps PoseidonSpec PoseidonPerm PoseidonGen PoseidonLook PoseidonProps DeviceProps RunnerProps DecodeProofs LoadModel LoadProofs.
Open Scope Z_scope.

(** branches, stores and ECALL have no destination register: in the code of a program their destination field is x0 *)
Definition plain_code (p : program) : Prop := forall a i, ro_code p !! a = Some (inl i) ->
  match iop i with BEQ | BNE | BLT | BGE | BLTU | BGEU | SB | SH | SW | ECALL => rd (iargs i) = 0 | _ => True end.
Lemma plain_no_dest p : plain_code p -> forall a i, ro_code p !! a = Some (inl i) -> no_dest i.
Proof. intros H a i E HD. specialize (H a i E). destruct (iop i); try discriminate HD; exact H. Qed.
(** no hashed message ends at 2^32 exactly *)
Definition messages_fit (rows : list exec_row) : Prop := forall c a o m, In (c, a, o, m) (hash_calls rows) -> a + Z.of_nat (length m) < 2 ^ 32.

(** * C78 The register tables generated for an execution *)
(** Every program that the loader accepts has such code. *)
Theorem C78_loaded : forall e input p segs, e_segments e = Some segs -> Forall seg_ok segs -> Forall u8 input -> load_program e input = Ok p -> plain_code p.
Proof.
  intros e input p segs ES HS HI E. destruct (load_program_inv _ _ _ E) as (segs' & ro & rw & x & c & ES' & _ & _ & _ & _ & _ & _ & E1 & E2 & E3 & E4 & ->).
  rewrite ES in ES'. injection ES' as <-. intros a i Hd. cbn [ro_code] in Hd. apply (code_from_entries x c (extract_ok _ _ _ _ HS HI E3) E4 a _) in Hd as (_ & _ & D). symmetry in D.
  assert (U : u32 (image_word x a)) by (apply image_word_u32; eapply extract_ok; eauto).
  destruct (decode_total a _ U) as [E'|(r & Hr & W)]; [rewrite D in E'; discriminate E'|]. rewrite <- W, decode_encode_rv in D by auto. injection D as <-. clear.
  destruct r as [o ? ? ?|o ? ? ?|o ? ? ?|w us ? ? ?|w ? ? ?|c ? ? ?|? ?|? ?|? ?|? ? ?|? ?|? ?|? ?|? ? ? ?|?]; cbn; try exact I; try reflexivity; try (destruct o; cbn; exact I || reflexivity); try (destruct w, us; cbn; exact I || reflexivity); try (destruct w; cbn; exact I || reflexivity); try (destruct c; cbn; reflexivity).
Qed.
(** For every halting execution of at most 2^31 - 2 steps of every such program, where no hashed message ends at 2^32: the
    ADD, BLTU, hash and register tables are generated without a panic; the general register table satisfies its constraints
    and range checks and puts the initial rows of a register before its accesses; and the three register tables together
    hold exactly the accesses that the CPU, ADD, BLTU, tape, hash and initial-register tables look up. *)
Theorem C78_generated_partial : forall K utf8_ok limit p fuel t rec, good_program p -> plain_code p -> good_tapes t ->
  step (poseidon2_permutation K) utf8_ok limit p fuel (state_new p t) = Ok rec ->
  let rows := run_rows rec in
  Z.of_nat (length (executed rec)) <= 2 ^ 31 - 2 -> messages_fit rows ->
  exists sponge adds blts zr zw regs, generate_sponge_trace rows = Ok sponge /\ generate_add_trace rows = Ok adds /\ generate_blt_trace rows = Ok blts /\
  let looking := register_looking (generate_cpu_trace rows) adds blts (fun o => generate_sd_trace o rows) sponge (generate_reginit_trace rec) in
  generate_register_trace looking = Ok (zr, zw, regs) /\
  (max_rows regs -> reg_accepted regs) /\ reg_init_first regs /\
  ctl_ok looking (reg_looked regs ++ zread_looked zr ++ zwrite_looked zw).
Proof.
  intros K utf8_ok limit p fuel t rec GP PC GT R rows SH HF. pose proof (permutation_state12 K) as P12. pose proof (good_program_ok _ GP) as PO. pose proof (state_new_ok p t GP GT) as OK.
  pose proof (step_rows_ok _ _ _ _ _ _ _ OK GP R) as F. fold (run_rows rec) in F. fold rows in F. pose proof (entries_calls _ P12 utf8_ok p rows PO F) as EC.
  assert (SP : exists sponge, generate_sponge_trace rows = Ok sponge).
  { unfold generate_sponge_trace. destruct (unroll_all_spec _ P12 utf8_ok _ _ EC) as [[T _]|[T ->]]; [|eauto]. exfalso. apply (top_calls _ _ _ EC) in T as (c & a & o & m & I & E). pose proof (HF c a o m I). lia. }
  destruct SP as [sponge SP]. assert (SHORT : Z.of_nat (length (run_rows rec)) <= 2 ^ 31 - 2) by (unfold run_rows; rewrite map_length; exact SH).
  pose proof (plain_no_dest _ PC) as ND.
  assert (SC : small_clk rows) by (intros s i a I; exact (proj2 (clk_small _ utf8_ok limit p fuel t rec GP GT ND R SHORT s i a I))).
  pose proof (reg_history _ P12 utf8_ok limit p fuel t rec GP GT ND R SHORT sponge SP) as HY. pose proof (looking_ok _ P12 utf8_ok limit p fuel t rec GP GT ND R SHORT sponge SP) as LO.
  fold rows in HY, LO. exists sponge, (add_rows rows), (blt_rows rows). eexists _, _, _. split; [exact SP|]. split; [apply add_generated, SC|]. split; [apply blt_generated, SC|]. cbv zeta.
  split; [eapply reg_generated; eauto|]. split; [apply (reg_table_ok _ _ _ HY)|]. split; [apply (reg_table_first _ _ _ HY)|].
  intros v. apply fz_eq. rewrite (reg_ctl _ _ _ LO HY v). apply Z.sub_diag.
Qed.
(** The rows tell the history of the registers: initial rows hold the registers before the first step, read rows of the step
    with clock k + 2 the register before it, write rows the register after it; every register a step changes has a write
    row; and all 31 registers have an initial row. *)
Theorem C78_history_partial : forall K utf8_ok limit p fuel t rec sponge adds blts zr zw regs, good_program p -> plain_code p -> good_tapes t ->
  step (poseidon2_permutation K) utf8_ok limit p fuel (state_new p t) = Ok rec ->
  let rows := run_rows rec in
  Z.of_nat (length (executed rec)) <= 2 ^ 31 - 2 ->
  generate_sponge_trace rows = Ok sponge -> generate_add_trace rows = Ok adds -> generate_blt_trace rows = Ok blts ->
  generate_register_trace (register_looking (generate_cpu_trace rows) adds blts (fun o => generate_sd_trace o rows) sponge (generate_reginit_trace rec)) = Ok (zr, zw, regs) ->
  (forall a, 1 <= a <= 31 -> exists r, In r regs /\ g_addr r = a /\ g_init r = 1) /\
  (forall r, In r regs -> 1 <= g_addr r <= 31) /\
  (forall r, In r regs -> g_init r = 1 -> get_reg (state_new p t) (g_addr r) = Ok (g_value r)) /\
  (forall r, In r regs -> g_read r = 1 -> exists k s, state_at rec k = Some s /\ (k < length (executed rec))%nat /\ g_clk r = 2 + Z.of_nat k /\ get_reg s (g_addr r) = Ok (g_value r)) /\
  (forall r, In r regs -> g_write r = 1 -> exists k s', state_at rec (S k) = Some s' /\ (k < length (executed rec))%nat /\ g_clk r = 2 + Z.of_nat k /\ get_reg s' (g_addr r) = Ok (g_value r)) /\
  (forall k s s' a, state_at rec k = Some s -> state_at rec (S k) = Some s' -> 0 <= a <= 31 -> get_reg s' a <> get_reg s a ->
     exists r, In r regs /\ g_write r = 1 /\ g_clk r = 2 + Z.of_nat k /\ g_addr r = a).
Proof.
  intros K utf8_ok limit p fuel t rec sponge adds blts zr zw regs GP PC GT R rows SH SP GA GB GR. pose proof (permutation_state12 K) as P12.
  assert (SHORT : Z.of_nat (length (run_rows rec)) <= 2 ^ 31 - 2) by (unfold run_rows; rewrite map_length; exact SH).
  pose proof (plain_no_dest _ PC) as ND. assert (SC : small_clk rows) by (intros s i a I; exact (proj2 (clk_small _ utf8_ok limit p fuel t rec GP GT ND R SHORT s i a I))).
  pose proof (reg_history _ P12 utf8_ok limit p fuel t rec GP GT ND R SHORT sponge SP) as HY. pose proof (looking_ok _ P12 utf8_ok limit p fuel t rec GP GT ND R SHORT sponge SP) as LO. fold rows in HY, LO.
  rewrite (add_generated _ SC) in GA. rewrite (blt_generated _ SC) in GB. injection GA as <-. injection GB as <-. rewrite (reg_generated _ _ _ LO HY) in GR. injection GR as _ _ <-. set (O := ops_of _) in *.
  assert (LR : length rows = length (executed rec)) by (unfold rows, run_rows; apply map_length).
  assert (F0 : state_at rec 0 = Some (state_new p t)). { unfold state_at. unfold step in R. pose proof (run_unfold _ utf8_ok _ _ _ _ _ R) as [[H ->]|(H & f' & a & i & s' & rec' & _ & _ & _ & -> & _)]; reflexivity. }
  assert (AO : forall k s, state_at rec k = Some s -> state_ok s) by (intros k s E; exact (all_ok _ utf8_ok limit p fuel t rec GP GT R k s E)).
  assert (SA : forall k, (k <= length (executed rec))%nat -> exists s, state_at rec k = Some s).
  { intros k L. unfold state_at. destruct (executed rec !! k) as [r|] eqn:E; [eauto|]. apply lookup_ge_None in E. assert (k = length (executed rec)) as -> by lia. rewrite Nat.eqb_refl. eauto. }
  assert (VA : forall k s a, state_at rec k = Some s -> 0 <= a <= 31 -> get_reg s a = Ok (val rec (2 + Z.of_nat k) a)).
  { intros k s a E A. rewrite get_reg_ok by (unfold is_reg; try apply (AO k s E); lia). unfold val. replace (Z.to_nat (2 + Z.of_nat k - 2)) with k by lia. rewrite E. reflexivity. }
  assert (RW : forall r, In r (reg_table O) -> g_init r = 1 \/ g_read r = 1 \/ g_write r = 1 -> In r (general O)).
  { intros r I B. destruct (reg_table_in _ _ _ HY r I) as (e & Ie & [-> | ->]); [exact Ie|]. cbn in B. exfalso. lia. }
  split; [|split; [|split; [|split; [|split]]]].
  - intros a A. exists (init_row (val rec) a). split; [|split; reflexivity]. apply (general_in _ _ _ HY), (init_general _ _ _ HY a A).
  - intros r I. destruct (reg_table_in _ _ _ HY r I) as (e & Ie & [-> | ->]); apply (general_row _ _ _ HY e Ie).
  - intros r I B. pose proof (RW r I (or_introl B)) as Ig. destruct (general_row _ _ _ HY r Ig) as [A [E|[C [E|E]]]]; rewrite E in B; try discriminate B. rewrite E. cbn [init_row g_addr g_value]. change 2 with (2 + Z.of_nat 0). apply VA; [exact F0|lia].
  - intros r I B. pose proof (RW r I (or_intror (or_introl B))) as Ig. destruct (general_row _ _ _ HY r Ig) as [A [E|[C [E|E]]]]; rewrite E in B; try discriminate B.
    destruct (SA (Z.to_nat (g_clk r - 2)) ltac:(lia)) as [s Es]. exists (Z.to_nat (g_clk r - 2)), s. split; [exact Es|]. split; [lia|]. split; [lia|]. rewrite E at 2. cbn [read_row g_value]. replace (g_clk r) with (2 + Z.of_nat (Z.to_nat (g_clk r - 2))) at 1 by lia. apply VA; [exact Es|lia].
  - intros r I B. pose proof (RW r I (or_intror (or_intror B))) as Ig. destruct (general_row _ _ _ HY r Ig) as [A [E|[C [E|E]]]]; rewrite E in B; try discriminate B.
    destruct (SA (S (Z.to_nat (g_clk r - 2))) ltac:(lia)) as [s Es]. exists (Z.to_nat (g_clk r - 2)), s. split; [exact Es|]. split; [lia|]. split; [lia|]. rewrite E at 2. cbn [write_row g_value]. replace (g_clk r + 1) with (2 + Z.of_nat (S (Z.to_nat (g_clk r - 2)))) at 1 by lia. apply VA; [exact Es|lia].
  - intros k s s' a E E' A N. assert (Lk : (k < length (executed rec))%nat). { unfold state_at in E'. destruct (executed rec !! S k) as [q|] eqn:Q; [apply lookup_lt_Some in Q; lia|]. destruct (Nat.eqb_spec (S k) (length (executed rec))); [lia|discriminate]. }
    assert (A1 : 1 <= a <= 31). { destruct (Z.eq_dec a 0) as [-> |]; [|lia]. exfalso. apply N. rewrite (get_reg_ok s' 0 (AO _ _ E')), (get_reg_ok s 0 (AO _ _ E)) by (unfold is_reg; lia). rewrite !reg_0 by (eapply AO; eauto). reflexivity. }
    exists (write_row (val rec) a (2 + Z.of_nat k)). split; [|cbn; auto]. apply (general_in _ _ _ HY), in_general. split; [|cbn; lia]. apply (rh_change _ _ _ HY); [exact A1|lia|]. rewrite (VA k s a E A), (VA (S k) s' a E' A) in N. replace (2 + Z.of_nat k + 1) with (2 + Z.of_nat (S k)) by lia. congruence.
Qed.

(** The program of C77: all 31 registers are initialised, x5 and x6 written and read, x31 initialised twice by the padding. *)
Definition reg_view (r : regrow) : Z * Z * Z * Z * Z := (g_addr r, g_clk r, g_read r, g_write r, g_value r).
Definition store_regs (rec : record) (sp : list sprow) : res (list zread * list zwrite * list regrow) :=
  adds <-- generate_add_trace (run_rows rec) ;; blts <-- generate_blt_trace (run_rows rec) ;;
  generate_register_trace (register_looking (generate_cpu_trace (run_rows rec)) adds blts (fun o => generate_sd_trace o (run_rows rec)) sp (generate_reginit_trace rec)).
Example C78_ex : exists rec sponge zr zw regs, store_run [(100, 7)] [(300, 9)] = Ok rec /\ generate_sponge_trace (run_rows rec) = Ok sponge /\
  good_program (store_prog [(100, 7)] [(300, 9)]) /\ plain_code (store_prog [(100, 7)] [(300, 9)]) /\
  Z.of_nat (length (executed rec)) <= 2 ^ 31 - 2 /\ messages_fit (run_rows rec) /\ store_regs rec sponge = Ok (zr, zw, regs) /\
  map reg_view (List.filter (fun r => ((g_addr r =? 5) || (g_addr r =? 6) || (g_addr r =? 31)) && (g_init r + g_read r + g_write r =? 1)) regs) =
    [ (5, 0, 0, 0, 0); (5, 2, 0, 1, 300); (5, 4, 1, 0, 300); (5, 5, 1, 0, 300); (5, 6, 1, 0, 300); (6, 0, 0, 0, 0); (6, 3, 0, 1, 77777); (6, 4, 1, 0, 77777); (31, 0, 0, 0, 0); (31, 0, 0, 0, 0) ].
Proof.
  destruct (store_check_ok [(100, 7)] [(300, 9)] (fun rec sp => (length (executed rec) <? 20)%nat && (length (hash_calls (run_rows rec)) =? 0)%nat && match store_regs rec sp with Ok (_, _, regs) => bool_decide (map reg_view (List.filter (fun r => ((g_addr r =? 5) || (g_addr r =? 6) || (g_addr r =? 31)) && (g_init r + g_read r + g_write r =? 1)) regs) =
    [ (5, 0, 0, 0, 0); (5, 2, 0, 1, 300); (5, 4, 1, 0, 300); (5, 5, 1, 0, 300); (5, 6, 1, 0, 300); (6, 0, 0, 0, 0); (6, 3, 0, 1, 77777); (6, 4, 1, 0, 77777); (31, 0, 0, 0, 0); (31, 0, 0, 0, 0) ]) | _ => false end)) as (rec & sp & R & _ & S & F); [vm_compute; reflexivity|].
  apply andb_true_iff in F as [F F3]. apply andb_true_iff in F as [F1 F2]. apply Nat.ltb_lt in F1. apply Nat.eqb_eq in F2. destruct (store_regs rec sp) as [[[zr zw] regs]| |] eqn:Q; try discriminate F3. apply bool_decide_eq_true in F3.
  exists rec, sp, zr, zw, regs. split; [exact R|]. split; [exact S|]. split; [apply store_good; apply small_bytes; repeat (apply List.Forall_cons; [unfold u32, u8; cbn; lia|]); apply List.Forall_nil|]. split; [|split; [lia|split; [|split; [exact Q|exact F3]]]].
  - assert (G : map_Forall (fun (_ : Z) (d : decode_result) => match d with inl i => match iop i with BEQ | BNE | BLT | BGE | BLTU | BGEU | SB | SH | SW | ECALL => rd (iargs i) = 0 | _ => True end | _ => True end) (ro_code (store_prog [(100, 7)] [(300, 9)]))).
    { apply map_Forall_to_list. change (map_to_list (ro_code (store_prog [(100, 7)] [(300, 9)]))) with (ltac:(let v := eval vm_compute in (map_to_list (ro_code (store_prog [(100, 7)] [(300, 9)]))) in exact v)). repeat (apply List.Forall_cons; [cbn; exact I || reflexivity|]); apply List.Forall_nil. }
    intros a i E. exact (G a (inl i) E).
  - intros c a o m I. apply length_zero_iff_nil in F2. rewrite F2 in I. destruct I.
Qed.

Print Assumptions C78_loaded.
Print Assumptions C78_generated_partial.
Print Assumptions C78_history_partial.
