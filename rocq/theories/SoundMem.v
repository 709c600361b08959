(** C80: the memory of accepted tables. *)
From Verif Require Import SoundSpec StateProofs TableProofs CpuProofs CpuTrace WordProofs WordProps StateProps CircuitProps RomProofs RegGenLook MemGenModel MemGenProofs ProofGenTables SoundRows SoundRegs.
Open Scope Z_scope.
Lemma running_sum r : is_running r = sumZ (map (c_op r) all_osel).
Proof. reflexivity. Qed.
#[local] Opaque is_running inst_data.

Lemma key5 a b c d e a' b' c' d' e' : tuple_key [a; b; c; d; e] = tuple_key [a'; b'; c'; d'; e'] -> feq a a' /\ feq b b' /\ feq c c' /\ feq d d' /\ feq e e'.
Proof. intros [= H1 H2 H3 H4 H5]. unfold feq. auto. Qed.
Section mem.
Context (K : p2consts) (p : program) (events casts : list Z) (T : tables).
Context (PA : proof_accepted K p events casts T) (TY : tables_typed T) (GC : gaps_closed p T) (FR : no_devices T) (GP : good_program p).
Context (n : nat) (SF : skel_facts p T n).

Definition into := cpu_byte_looking (t_cpu T) ++ [] ++ word_limb_looking 4 (t_full T) ++ word_limb_looking 2 (t_half T).
Lemma into_ctl : ctl_ok into (mem_looked (t_mem T)).
Proof.
  intros v. pose proof (lh_memory _ (pa_lookups _ _ _ _ _ PA) v) as H. unfold into. cbn [app]. rewrite !mult_app in *. pose proof (fr_memory _ FR) as D. rewrite !List.Forall_app in D. destruct D as (D1 & D2 & D3).
  rewrite (mult_zero v _ D1), (mult_zero v _ D2), (mult_zero v _ D3) in H. rewrite ?Z.add_0_l, ?Z.add_0_r in H. exact H.
Qed.
Lemma half_bit r : In r (t_half T) -> bit (w_store r) /\ bit (w_load r) /\ bit (w_executed r).
Proof. intros I. destruct (ty_half _ TY) as [TH _]. rewrite List.Forall_forall in TH. apply (word_bits 2 r (TH r I)). left. apply (half_zero (t_half T)); auto. apply (ch_half _ _ _ (pa_constraints _ _ _ _ _ PA)). Qed.
Lemma full_bit r : In r (t_full T) -> bit (w_store r) /\ bit (w_load r) /\ bit (w_executed r).
Proof. intros I. destruct (ty_full _ TY) as [TH _]. rewrite List.Forall_forall in TH. apply (word_bits 4 r (TH r I)). right. apply (full_zero (t_full T)); auto. apply (ch_full _ _ _ (pa_constraints _ _ _ _ _ PA)). Qed.
Lemma run_of_op r o : In r (t_cpu T) -> c_op r o = 1 -> is_running r = 1.
Proof.
  intros I RO. pose proof (cpu_acc _ _ _ _ _ PA TY GC) as A. destruct (accepted_always _ _ A I) as [C Z0]. destruct (one_hot r C Z0) as [B _].
  destruct (op_filter_bit (t_cpu T) r all_osel A I all_osel_nodup) as [E|E]; [exfalso|rewrite running_sum; exact E].
  pose proof (sumZ_ge (map (c_op r) all_osel) (c_op r o)) as G. rewrite E, RO in G. cut (1 <= 0); [lia|]. apply G.
  - apply List.Forall_forall. intros x J. apply in_map_iff in J as (s & <- & _). destruct (B s) as [-> | ->]; lia.
  - rewrite <- RO. apply in_map, all_osel_in.
Qed.
Lemma op_bit r o : In r (t_cpu T) -> bit (c_op r o).
Proof. intros I. pose proof (cpu_acc _ _ _ _ _ PA TY GC) as A. destruct (accepted_always _ _ A I) as [C Z0]. destruct (one_hot r C Z0) as [B _]. apply B. Qed.
Lemma ms_bit w : In w (t_mem T) -> bit (m_store w) /\ bit (m_load w) /\ bit (m_init w) /\ bit (m_store w + m_load w + m_init w).
Proof.
  intros I. apply In_lookup in I as [k E]. destruct (succ_mod _ _ _ E) as (r' & E'). pose proof (ts_always _ _ (ch_mem _ _ _ (pa_constraints _ _ _ _ _ PA)) k w r' E E') as A.
  destruct (ty_mem _ TY) as [C _]. rewrite List.Forall_forall in C. destruct (C w (lookup_In _ _ _ E)) as (C1 & C2 & C3 & C4 & C5 & C6 & C7).
  cbn in A. unfold all_zero in A. rewrite !List.Forall_cons_iff in A. destruct A as (_ & A2 & A3 & A4 & A5 & _).
  apply binary_canon in A2, A3, A4; auto. repeat split; auto. apply binary_canon in A5; [|unfold canon, m_executed, P in *; lia]. unfold m_executed, bit in *. lia.
Qed.
(** the CPU row behind an access *)
Definition access_row (w : memrow) (r : cpu) (wd : width) : Prop :=
  In r (t_cpu T) /\ is_running r = 1 /\ c_clk r = m_clk w /\ c_op r (store_sel wd) = m_store w /\ c_op r (load_sel wd) = m_load w.
Definition access_byte (w : memrow) (r : cpu) (wd : width) : Prop :=
  match wd with
  | wB => m_addr w = c_mem_addr r /\ m_value w = c_mem_value_raw r
  | wH => exists h i, In h (t_half T) /\ w_executed h = 1 /\ (i < 2)%nat /\ m_addr w = nth i (w_addrs h) 0 /\ m_value w = nth i (w_limbs h) 0 /\ nth 0 (w_addrs h) 0 = c_mem_addr r /\ feq (reduce_with_powers (w_limbs h) 256) (c_mem_value_raw r)
  | wW => exists h i, In h (t_full T) /\ w_executed h = 1 /\ (i < 4)%nat /\ m_addr w = nth i (w_addrs h) 0 /\ m_value w = nth i (w_limbs h) 0 /\ nth 0 (w_addrs h) 0 = c_mem_addr r /\ feq (reduce_with_powers (w_limbs h) 256) (c_mem_value_raw r)
  end.
Lemma word_cpu (t : list wordrow) k h wd : (wd = wH \/ wd = wW) -> ctl_ok (cpu_mem_looking (store_sel wd) (load_sel wd) (t_cpu T)) (word_looked t) -> Forall (word_typed k) t -> max_rows t ->
  (forall r, In r t -> bit (w_store r) /\ bit (w_load r) /\ bit (w_executed r)) -> In h t -> w_executed h = 1 ->
  exists r, In r (t_cpu T) /\ is_running r = 1 /\ c_clk r = w_clk h /\ c_op r (store_sel wd) = w_store h /\ c_op r (load_sel wd) = w_load h /\ nth 0 (w_addrs h) 0 = c_mem_addr r /\ feq (reduce_with_powers (w_limbs h) 256) (c_mem_value_raw r).
Proof.
  intros WD CT WT L B I E. assert (BL : Forall (fun e => bit (snd e)) (word_looked t)) by (apply List.Forall_forall; intros e J; apply in_map_iff in J as (q & <- & J); apply B, J).
  set (tu := [w_clk h; w_store h; w_load h; nth 0 (w_addrs h) 0; reduce_with_powers (w_limbs h) 256]). assert (J : In (tu, 1) (word_looked t)) by (apply in_map_iff; exists h; rewrite E; auto).
  destruct (ctl_nonzero _ _ tu (ctl_sym _ _ CT)) as (u & m & Im & KE & NZ).
  { pose proof (mult_of_pos _ _ BL J). pose proof (mult_of_bits tu _ BL) as M. unfold word_looked in M at 3. rewrite map_length in M. unfold max_rows, P in *. lia. }
  unfold cpu_mem_looking in Im. apply in_map_iff in Im as (r & Q & Ir). inj2 Q. apply key5 in KE as (K1 & K2 & K3 & K4 & K5). exists r.
  rewrite List.Forall_forall in WT. pose proof (WT h I) as (_ & _ & C). apply List.Forall_app in C as [C C']. apply List.Forall_app in C' as [CA CL]. rewrite !List.Forall_cons_iff in C. destruct C as (C1 & C2 & C3 & _).
  assert (CR : canon (c_clk r) /\ canon (c_mem_addr r)) by (split; apply (cpu_col _ TY r _ Ir); in_cols).
  assert (S1 : c_op r (store_sel wd) = w_store h) by (apply mod_eq; auto; apply (cpu_op_canon _ TY), Ir). assert (S2 : c_op r (load_sel wd) = w_load h) by (apply mod_eq; auto; apply (cpu_op_canon _ TY), Ir).
  split; auto. split; [|split; [apply mod_eq; tauto|split; auto; split; auto; split; [symmetry; apply mod_eq; auto; [tauto|apply nth_canon; auto]|unfold feq in *; congruence]]].
  destruct (B h I) as (B1 & B2 & _). unfold w_executed in E. destruct (Z.eq_dec (w_store h) 1) as [Z1|Z1]; [apply (run_of_op r (store_sel wd)); congruence|apply (run_of_op r (load_sel wd)); auto; rewrite S2; unfold bit in *; lia].
Qed.
Lemma mem_sent w : In w (t_mem T) -> m_store w + m_load w = 1 -> exists r wd, access_row w r wd /\ access_byte w r wd.
Proof.
  intros I E. set (tu := [m_clk w; m_store w; m_load w; m_addr w; m_value w]).
  assert (BL : Forall (fun e => bit (snd e)) (mem_looked (t_mem T))) by (apply List.Forall_forall; intros e J; apply in_map_iff in J as (q & <- & J); destruct (ms_bit q J) as (A & B & C & D); cbn [snd]; unfold bit in *; lia).
  assert (J : In (tu, 1) (mem_looked (t_mem T))) by (apply in_map_iff; exists w; rewrite E; auto).
  destruct (ctl_nonzero _ _ tu (ctl_sym _ _ into_ctl)) as (u & m & Im & KE & NZ).
  { pose proof (mult_of_pos _ _ BL J). pose proof (mult_of_bits tu _ BL) as M. destruct (ty_mem _ TY) as [_ L]. unfold mem_looked in M at 3. rewrite map_length in M. unfold max_rows, P in *. lia. }
  destruct (ty_mem _ TY) as [CM _]. rewrite List.Forall_forall in CM. destruct (CM w I) as (_ & C2 & C3 & C4 & C5 & _ & C7).
  unfold into in Im. cbn [app] in Im. rewrite !in_app_iff in Im. destruct Im as [Im|[Im|Im]].
  - unfold cpu_byte_looking, cpu_mem_looking in Im. apply in_map_iff in Im as (r & Q & Ir). inj2 Q. apply key5 in KE as (K1 & K2 & K3 & K4 & K5). exists r, wB.
    assert (CR : canon (c_clk r) /\ canon (c_mem_addr r) /\ canon (c_mem_value_raw r)) by (repeat split; try apply (cpu_col _ TY r _ Ir); in_cols). destruct CR as (CR1 & CR2 & CR3).
    assert (S1 : c_op r o_sb = m_store w) by (apply mod_eq; auto; apply (cpu_op_canon _ TY), Ir). assert (S2 : c_op r o_lb = m_load w) by (apply mod_eq; auto; apply (cpu_op_canon _ TY), Ir).
    split; [|split; symmetry; apply mod_eq; auto]. split; auto. split; [|split; [apply mod_eq; auto|split; auto]].
    destruct (op_bit r o_sb Ir) as [Z1|Z1]; [apply (run_of_op r o_lb); auto; lia|apply (run_of_op r o_sb); auto].
  - unfold word_limb_looking in Im. apply in_flat_map in Im as (i & Ii & Im). apply in_seq in Ii. apply in_map_iff in Im as (h & Q & Ih). inj2 Q. apply key5 in KE as (K1 & K2 & K3 & K4 & K5).
    destruct (ty_full _ TY) as [TF LF]. assert (X : w_executed h = 1) by (apply bit_nz; auto; apply full_bit, Ih).
    destruct (word_cpu (t_full T) 4 h wW) as (r & Ir & Rr & E1 & E2 & E3 & E4 & E5); auto; [apply (lh_full _ (pa_lookups _ _ _ _ _ PA))|apply full_bit|].
    rewrite List.Forall_forall in TF. pose proof (word_row_canon 4 h i (TF h Ih)) as CW. rewrite !List.Forall_cons_iff in CW. destruct CW as (D1 & D2 & D3 & D4 & D5 & _). apply mod_eq in K1, K2, K3, K4, K5; auto.
    exists r, wW. split; [split; auto; split; auto; split; [congruence|split; congruence]|]. exists h, i. split; auto. split; auto. split; [lia|]. auto.
  - unfold word_limb_looking in Im. apply in_flat_map in Im as (i & Ii & Im). apply in_seq in Ii. apply in_map_iff in Im as (h & Q & Ih). inj2 Q. apply key5 in KE as (K1 & K2 & K3 & K4 & K5).
    destruct (ty_half _ TY) as [TF LF]. assert (X : w_executed h = 1) by (apply bit_nz; auto; apply half_bit, Ih).
    destruct (word_cpu (t_half T) 2 h wH) as (r & Ir & Rr & E1 & E2 & E3 & E4 & E5); auto; [apply (lh_half _ (pa_lookups _ _ _ _ _ PA))|apply half_bit|].
    rewrite List.Forall_forall in TF. pose proof (word_row_canon 2 h i (TF h Ih)) as CW. rewrite !List.Forall_cons_iff in CW. destruct CW as (D1 & D2 & D3 & D4 & D5 & _). apply mod_eq in K1, K2, K3, K4, K5; auto.
    exists r, wH. split; [split; auto; split; auto; split; [congruence|split; congruence]|]. exists h, i. split; auto. split; auto. split; [lia|]. auto.
Qed.
(** ** Initial memory *)
Definition image : gmap Z Z := ro_memory p ∪ rw_memory p.
Lemma elf_row q : In q (t_elf T) -> mi_filter q = 0 \/ (mi_filter q = 1 /\ exists a b, u32 a /\ u8 b /\
  ((ro_memory p !! a = Some b /\ q = mkMemInit a b 1 0) \/ (rw_memory p !! a = Some b /\ q = mkMemInit a b 1 1))).
Proof.
  intros I. rewrite (pa_elf _ _ _ _ _ PA) in I. unfold generate_memory_init_trace in I. apply RegGenRun.in_pad in I as [I| ->]; [|left; reflexivity]. right.
  rewrite sort_in in I. unfold elf_memory_init in I. rewrite in_app_iff in I. destruct I as [I|I]; apply in_map_iff in I as ([a b] & <- & I); (split; [reflexivity|]); exists a, b; apply elem_of_list_In, elem_of_map_to_list in I.
  - destruct (gp_ro _ GP a b I). auto 6.
  - destruct (gp_rw _ GP a b I). auto 6.
Qed.
Lemma elf_ro a b : ro_memory p !! a = Some b -> In (mkMemInit a b 1 0) (t_elf T).
Proof.
  intros E. rewrite (pa_elf _ _ _ _ _ PA). unfold generate_memory_init_trace. apply RegGenRun.pad_keeps. rewrite sort_in. unfold elf_memory_init. apply in_or_app. left.
  apply in_map_iff. exists (a, b). split; auto. apply elem_of_list_In, elem_of_map_to_list, E.
Qed.
Lemma elf_rw a b : rw_memory p !! a = Some b -> In (mkMemInit a b 1 1) (t_elf T).
Proof.
  intros E. rewrite (pa_elf _ _ _ _ _ PA). unfold generate_memory_init_trace. apply RegGenRun.pad_keeps. rewrite sort_in. unfold elf_memory_init. apply in_or_app. right.
  apply in_map_iff. exists (a, b). split; auto. apply elem_of_list_In, elem_of_map_to_list, E.
Qed.
Lemma zero_bit q : In q (t_zero T) -> bit (zi_filter q).
Proof.
  intros I. destruct (ty_zero _ TY) as [C _]. rewrite List.Forall_forall in C. destruct (C q I) as [_ C2]. apply In_lookup in I as [k E]. destruct (succ_mod _ _ _ E) as (r' & E').
  pose proof (ts_always _ _ (ch_zero _ _ _ (pa_constraints _ _ _ _ _ PA)) k q r' E E') as A. apply List.Forall_inv in A. apply binary_canon; auto.
Qed.
Lemma init_bits : Forall (fun e => bit (snd e)) (meminit_looking (t_elf T) ++ zeroinit_looking (t_zero T)).
Proof.
  rewrite List.Forall_app. split; apply List.Forall_forall; intros e I; apply in_map_iff in I as (q & <- & I); cbn [snd]; [|apply zero_bit, I].
  destruct (elf_row q I) as [H|[H _]]; rewrite H; [left|right]; reflexivity.
Qed.
Lemma mem_canons w : In w (t_mem T) -> mem_canon w.
Proof. intros I. destruct (ty_mem _ TY) as [C _]. rewrite List.Forall_forall in C. auto. Qed.
(** every byte of the program image has its initial row *)
Lemma init_row q : In q (t_elf T) -> mi_filter q = 1 -> exists w, In w (t_mem T) /\ m_init w = 1 /\ m_addr w = mi_addr q /\ m_clk w = 1 /\ m_value w = mi_value q /\ m_writable w = mi_writable q.
Proof.
  intros I F. destruct (ctl_member _ _ [mi_writable q; mi_addr q; 1; mi_value q] (lh_meminit _ (pa_lookups _ _ _ _ _ PA)) init_bits) as (t & m & Im & KE & NZ).
  - unfold meminit_looking, zeroinit_looking. rewrite app_length, !map_length. pose proof (ty_elf _ TY) as A. destruct (ty_zero _ TY) as [_ B]. unfold max_rows, P in *. lia.
  - apply in_or_app. left. apply in_map_iff. exists q. rewrite F. auto.
  - unfold mem_init_looked in Im. apply in_map_iff in Im as (w & Q & Iw). inj2 Q. exists w. destruct (ms_bit w Iw) as (_ & _ & B & _). split; auto. split; [apply bit_nz; auto|].
    destruct (mem_canons w Iw) as (C1 & C2 & C3 & _ & _ & _ & C7). apply tuple_canon in KE.
    + injection KE as <- <- <- <-. auto.
    + repeat (constructor; auto).
    + destruct (elf_row q I) as [F0|(_ & a & b & U1 & U2 & [(_ & ->)|(_ & ->)])]; [rewrite F in F0; discriminate F0|..]; cbn [mi_writable mi_addr mi_value]; unfold u32, u8 in *; repeat constructor; unfold P; lia.
Qed.
(** every initial row is sent by one of the two tables *)
Lemma init_sent w : In w (t_mem T) -> m_init w = 1 ->
  (exists q, In q (t_elf T) /\ mi_filter q = 1 /\ m_addr w = mi_addr q /\ m_clk w = 1 /\ m_value w = mi_value q /\ m_writable w = mi_writable q) \/ (m_clk w = 0 /\ m_value w = 0).
Proof.
  intros I E. set (tu := [m_writable w; m_addr w; m_clk w; m_value w]).
  assert (BL : Forall (fun e => bit (snd e)) (mem_init_looked (t_mem T))) by (apply List.Forall_forall; intros e J; apply in_map_iff in J as (q & <- & J); apply (ms_bit q J)).
  assert (J : In (tu, 1) (mem_init_looked (t_mem T))) by (apply in_map_iff; exists w; rewrite E; auto).
  destruct (ctl_member _ _ tu (ctl_sym _ _ (lh_meminit _ (pa_lookups _ _ _ _ _ PA))) BL) as (t & m & Im & KE & NZ); auto.
  { destruct (ty_mem _ TY) as [_ L]. unfold mem_init_looked. rewrite map_length. unfold max_rows, P in *. lia. }
  destruct (mem_canons w I) as (C1 & C2 & C3 & _ & _ & _ & C7). apply in_app_or in Im as [Im|Im]; apply in_map_iff in Im as (q & Q & Iq); inj2 Q.
  - left. exists q. destruct (elf_row q Iq) as [F0|(F & a & b & U1 & U2 & H)]; [exfalso; apply NZ; rewrite F0; reflexivity|]. split; auto. split; auto. apply tuple_canon in KE.
    + unfold tu in KE. injection KE as <- <- <- <-. auto.
    + destruct H as [(_ & ->)|(_ & ->)]; cbn [mi_writable mi_addr mi_value]; unfold u32, u8 in *; repeat constructor; unfold P; lia.
    + repeat (constructor; auto).
  - right. destruct (ty_zero _ TY) as [C _]. rewrite List.Forall_forall in C. destruct (C q Iq) as [D _]. apply tuple_canon in KE.
    + unfold tu in KE. injection KE as _ _ K1 K2. auto.
    + unfold canon in D. repeat constructor; unfold P in *; lia.
    + unfold tu. repeat (constructor; auto).
Qed.
(** ** The memory table, and the tables that access it *)
Lemma mem_acc : mem_accepted (t_mem T).
Proof.
  constructor.
  - apply (ch_mem _ _ _ (pa_constraints _ _ _ _ _ PA)).
  - apply (ty_mem _ TY).
  - apply (ty_mem _ TY).
  - intros v f I F. apply (rc_u32' _ _ _ _ _ PA TY GC) with (f := f); auto. unfold rc_all. apply in_or_app. left. exact I.
  - intros v f I F. unfold mem_u8_looking in I. pose proof I as I'. apply in_map_iff in I as (w & Q & Iw). inj2 Q. injection E1 as <-. destruct (gc_rc _ _ GC) as [_ G].
    assert (BE : m_executed w = 1) by (apply bit_nz; auto; destruct (ms_bit w Iw) as (_ & _ & _ & B); exact B).
    destruct (ctl_member_total _ _ [m_value w] (m_executed w) (lh_u8 _ (pa_lookups _ _ _ _ _ PA))) as (t & m & Im & KE & NZ); auto.
    + rewrite List.Forall_app. split; apply List.Forall_forall; intros [x g] J; cbn [snd].
      * unfold rc_u8_looking in J. apply in_flat_map in J as (k & _ & J). apply in_map_iff in J as (q & Q & J). injection Q as _ <-. pose proof (ty_rc _ TY) as C. rewrite List.Forall_forall in C. destruct (C q J) as [_ D]. apply List.Forall_inv in D. unfold canon in D. lia.
      * unfold mem_u8_looking in J. apply in_map_iff in J as (q & Q & J). injection Q as _ <-. destruct (ms_bit q J) as (_ & _ & _ & B). unfold m_executed, bit in *. lia.
    + apply in_or_app. right. exact I'.
    + lia.
    + unfold u8_looked in Im. apply in_map_iff in Im as (q & Q & Iq). inj2 Q. destruct (ty_u8 _ TY) as [C8 L8]. apply tuple_canon in KE.
      * injection KE as KE. apply (u8_sound (t_u8 T)); auto; [apply (ch_u8 _ _ _ (pa_constraints _ _ _ _ _ PA))|]. eauto.
      * rewrite List.Forall_forall in C8. constructor; auto.
      * constructor; auto. apply (mem_canons w Iw).
  - apply List.Forall_forall. intros w I E. destruct (init_sent w I E) as [(_ & _ & _ & _ & C & _)|(C & _)]; auto.
  - apply List.Forall_forall. intros w I E. destruct (mem_sent w I E) as (r & wd & (Ir & Rr & CE & _) & _). pose proof (row_clk _ _ _ _ _ PA TY GC n SF (Rc r)) as C. cbn [a_clk a_run] in C.
    rewrite <- CE. assert (L : 2 <= c_clk r < 2 + Z.of_nat n) by (apply C; auto; unfold a_rows; apply in_or_app; left; apply in_map, Ir). destruct SF as ((_ & N1) & _). destruct (ty_skel _ TY) as [_ N2]. unfold max_rows in N2. lia.
Qed.
Lemma mem_sys : mem_system (t_cpu T) (t_half T) (t_full T) [] (t_mem T).
Proof.
  constructor.
  - apply (cpu_acc _ _ _ _ _ PA TY GC).
  - apply (ch_half _ _ _ (pa_constraints _ _ _ _ _ PA)).
  - apply (ty_half _ TY).
  - apply (ty_half _ TY).
  - apply (ch_full _ _ _ (pa_constraints _ _ _ _ _ PA)).
  - apply (ty_full _ TY).
  - apply (ty_full _ TY).
  - apply mem_acc.
  - constructor.
  - cbn. lia.
  - apply into_ctl.
  - apply (lh_half _ (pa_lookups _ _ _ _ _ PA)).
  - apply (lh_full _ (pa_lookups _ _ _ _ _ PA)).
Qed.
Lemma image_init a b : image !! a = Some b -> exists w, In w (t_mem T) /\ m_init w = 1 /\ m_addr w = a /\ m_value w = b /\ (is_Some (ro_memory p !! a) -> m_writable w = 0).
Proof.
  unfold image. intros E. apply lookup_union_Some_raw in E as [E|[N E]].
  - destruct (init_row _ (elf_ro a b E) eq_refl) as (w & I & X & A & _ & V & W). exists w. auto 6.
  - destruct (init_row _ (elf_rw a b E) eq_refl) as (w & I & X & A & _ & V & W). exists w. repeat (split; auto). intros S. rewrite N in S. destruct S as [? S]. discriminate S.
Qed.
Lemma init_same w w' : In w (t_mem T) -> In w' (t_mem T) -> m_init w = 1 -> m_init w' = 1 -> m_addr w = m_addr w' -> w = w'.
Proof. intros I I' E E' A. apply In_lookup in I as [k L], I' as [k' L']. pose proof (mem_init_unique _ mem_acc k k' w w' L L' E E' A). subst k'. congruence. Qed.
Lemma init_value w : In w (t_mem T) -> m_init w = 1 -> m_value w = default 0 (image !! m_addr w).
Proof.
  intros I E. destruct (image !! m_addr w) as [b|] eqn:M.
  - destruct (image_init _ _ M) as (w' & I' & E' & A & V & _). rewrite (init_same w w' I I' E E' (eq_sym A)). exact V.
  - destruct (init_sent w I E) as [(q & Iq & F & A & _)|[_ V]]; [exfalso|exact V]. destruct (elf_row q Iq) as [F0|(_ & a & b & _ & _ & [(M' & ->)|(M' & ->)])]; [rewrite F in F0; discriminate F0|..]; cbn [mi_addr] in A; subst a; unfold image in M.
    + rewrite (lookup_union_Some_l _ _ _ _ M') in M. discriminate M.
    + apply lookup_union_None in M as [_ M]. rewrite M in M'. discriminate M'.
Qed.
Lemma store_writable w : In w (t_mem T) -> m_store w = 1 -> ro_memory p !! m_addr w = None.
Proof.
  intros I S. destruct (ro_memory p !! m_addr w) as [b|] eqn:M; auto. exfalso. assert (X : image !! m_addr w = Some b) by (unfold image; apply lookup_union_Some_l, M).
  destruct (image_init _ _ X) as (w' & I' & E' & A & _ & W). rewrite M in W. specialize (W ltac:(eexists; reflexivity)). pose proof (C31_readonly _ _ _ mem_acc I' I E' W (eq_sym A)). lia.
Qed.
(** ** Bytes stored and loaded by a step *)
(** step [x] accesses byte [a] with the selector [sel w] *)
Definition touches (sel : width -> osel) (x : arow) (a v : Z) : Prop :=
  match x with
  | Rc r => exists w i, c_op r (sel w) = 1 /\ (i < nbytes w)%nat /\ a = word (c_mem_addr r + Z.of_nat i) /\ v = c_mem_value_raw r / 256 ^ Z.of_nat i mod 256
  | _ => False
  end.
Definition stored := touches store_sel.
Definition loaded := touches load_sel.
Lemma mem_touch w : In w (t_mem T) -> m_store w = 1 \/ m_load w = 1 -> exists r, In r (t_cpu T) /\ is_running r = 1 /\ c_clk r = m_clk w /\
  (m_store w = 1 -> stored (Rc r) (m_addr w) (m_value w)) /\ (m_load w = 1 -> loaded (Rc r) (m_addr w) (m_value w)).
Proof.
  intros I E. assert (E' : m_store w + m_load w = 1) by (destruct (ms_bit w I) as (B1 & B2 & B3 & B4); unfold bit in *; lia).
  destruct (mem_sent w I E') as (r & wd & (Ir & Rr & CE & S & L) & AB). exists r. split; auto. split; auto. split; auto.
  assert (H : exists i, (i < nbytes wd)%nat /\ m_addr w = word (c_mem_addr r + Z.of_nat i) /\ m_value w = c_mem_value_raw r / 256 ^ Z.of_nat i mod 256).
  { pose proof mem_sys as MS. assert (X : c_op r (store_sel wd) + c_op r (load_sel wd) = 1) by lia. destruct (C33_cpu_bytes _ _ _ _ _ wd r MS Ir X) as (UA & UV & _).
    destruct wd; cbn [access_byte nbytes] in *.
    - destruct AB as [A V]. exists 0%nat. rewrite A, V. change (256 ^ Z.of_nat 0) with 1. unfold u32 in UA. unfold word, M32. change (2 ^ (8 * Z.of_nat 1)) with 256 in UV. rewrite Z.div_1_r, Z.add_0_r, !Z.mod_small by lia. auto.
    - destruct AB as (h & i & Ih & X' & Li & A & V & A0 & V0). exists i. split; auto. pose proof (half_addr _ _ _ _ _ MS h Ih X') as HA. destruct (half_typed _ _ _ _ _ MS h Ih) as (_ & LL & _).
      destruct (bytes2 (w_limbs h) LL) as [BV BB]. { apply (limbs_u8 2); [exact LL|]. intros j Lj. apply (half_limb _ _ _ _ _ MS h j Ih X' Lj). }
      assert (RV : reduce_with_powers (w_limbs h) 256 = c_mem_value_raw r) by (apply mod_eq; auto; unfold canon, P; [lia|change (2 ^ (8 * Z.of_nat 2)) with 65536 in UV; lia]).
      rewrite <- RV, BB by auto. split; auto. rewrite A, <- A0. destruct i as [|[|i]]; [|exact HA|lia]. destruct (half_limb _ _ _ _ _ MS h 0 Ih X' ltac:(lia)) as (_ & U & _). unfold word, M32, u32 in *. rewrite Z.add_0_r, Z.mod_small; lia.
    - destruct AB as (h & i & Ih & X' & Li & A & V & A0 & V0). exists i. split; auto. pose proof (full_addr _ _ _ _ _ MS h i Ih X' Li) as HA. destruct (full_typed _ _ _ _ _ MS h Ih) as (_ & LL & _).
      destruct (bytes4 (w_limbs h) LL) as [BV BB]. { apply (limbs_u8 4); [exact LL|]. intros j Lj. apply (full_limb _ _ _ _ _ MS h j Ih X' Lj). }
      assert (RV : reduce_with_powers (w_limbs h) 256 = c_mem_value_raw r) by (apply mod_eq; auto; unfold canon, P; [lia|change (2 ^ (8 * Z.of_nat 4)) with 4294967296 in UV; lia]).
      rewrite <- RV, BB by auto. split; auto. rewrite A, HA, A0. reflexivity. }
  destruct H as (i & Li & A & V). split; intros O; exists wd, i; repeat (split; auto); congruence.
Qed.
Lemma touch_mem r a v : In r (t_cpu T) ->
  (stored (Rc r) a v -> exists w, In w (t_mem T) /\ m_store w = 1 /\ m_clk w = c_clk r /\ m_addr w = a /\ m_value w = v) /\
  (loaded (Rc r) a v -> exists w, In w (t_mem T) /\ m_load w = 1 /\ m_clk w = c_clk r /\ m_addr w = a /\ m_value w = v).
Proof.
  intros I. assert (OH : forall wd, bit (c_op r (store_sel wd) + c_op r (load_sel wd))).
  { intros wd. assert (B : bit (sumZ (map (c_op r) [store_sel wd; load_sel wd]))). { apply (op_filter_bit (t_cpu T)); auto; [apply (cpu_acc _ _ _ _ _ PA TY GC)|]. destruct wd; (constructor; [intros [K0|[]]; discriminate|]; constructor; [intros []|constructor]). }
    unfold sumZ in B. cbn [map fold_left] in B. rewrite Z.add_0_l in B. exact B. }
  split; intros (wd & i & O & L & -> & ->); specialize (OH wd); pose proof (op_bit r (store_sel wd) I) as B1; pose proof (op_bit r (load_sel wd) I) as B2;
    destruct (C33_cpu_bytes _ _ _ _ _ wd r mem_sys I ltac:(unfold bit in *; lia)) as (_ & _ & AC); destruct (AC i L) as (w & Iw & W1 & W2 & W3 & W4 & W5); exists w; repeat (split; auto); congruence.
Qed.
Lemma width_same r w w' sel : In r (t_cpu T) -> sel = store_sel \/ sel = load_sel -> c_op r (sel w) = 1 -> c_op r (sel w') = 1 -> w = w'.
Proof.
  intros I Q A B. assert (DW : w = w' \/ w <> w') by (destruct w, w'; auto; right; discriminate). destruct DW as [|N]; auto. exfalso.
  assert (X : bit (sumZ (map (c_op r) [sel w; sel w']))). { apply (op_filter_bit (t_cpu T)); auto; [apply (cpu_acc _ _ _ _ _ PA TY GC)|]. constructor; [intros [K0|[]]|constructor; [intros []|constructor]]. destruct Q as [-> | ->]; destruct w, w'; try discriminate K0; auto. }
  unfold sumZ in X. cbn [map fold_left] in X. rewrite A, B in X. unfold bit in X. lia.
Qed.
Lemma word_inj a i j : (i < 4)%nat -> (j < 4)%nat -> word (a + Z.of_nat i) = word (a + Z.of_nat j) -> i = j.
Proof. unfold word, M32. intros L1 L2 E. pose proof (Z.div_mod (a + Z.of_nat i) (2 ^ 32) ltac:(lia)). pose proof (Z.div_mod (a + Z.of_nat j) (2 ^ 32) ltac:(lia)). rewrite E in H. lia. Qed.
Lemma nbytes_4 w : (nbytes w <= 4)%nat. Proof. destruct w; cbn; lia. Qed.
Lemma touch_same sel x a v v' : In x (a_rows T) -> sel = store_sel \/ sel = load_sel -> touches sel x a v -> touches sel x a v' -> v = v'.
Proof.
  destruct x as [r|r|r]; [|intros _ _ []..]. intros I Q (w & i & O & L & A & V) (w' & i' & O' & L' & A' & V'). assert (Ir : In r (t_cpu T)) by (unfold a_rows in I; rewrite !in_app_iff, !in_map_iff in I; destruct I as [(q & [= ->] & I)|[(q & Q' & _)|(q & Q' & _)]]; [exact I|discriminate Q'..]).
  rewrite <- (width_same r w w' sel Ir Q O O') in *. subst a. apply word_inj in A'; [congruence|pose proof (nbytes_4 w); lia..].
Qed.
(** ** Memory along the steps *)
Context (xs : list arow) (ST : steps T n xs).
Definition mem_now (k : nat) (f : Z -> Z) : Prop := forall a, u32 a ->
  (exists j x, (j < k)%nat /\ xs !! j = Some x /\ stored x a (f a) /\ forall j' x' v, (j < j' < k)%nat -> xs !! j' = Some x' -> ~ stored x' a v) \/
  ((forall j x v, (j < k)%nat -> xs !! j = Some x -> ~ stored x a v) /\ f a = default 0 (image !! a)).
Lemma mem_now_0 : mem_now 0 (fun a => default 0 (image !! a)).
Proof. intros a U. right. split; auto. intros; lia. Qed.
Lemma mem_now_step k x f f' : xs !! k = Some x -> mem_now k f ->
  (forall a, u32 a -> stored x a (f' a) \/ ((forall v, ~ stored x a v) /\ f' a = f a)) -> mem_now (S k) f'.
Proof.
  intros E M H a U. destruct (H a U) as [S|[N ->]].
  - left. exists k, x. split; [lia|]. split; auto. split; auto. intros; lia.
  - destruct (M a U) as [(j & y & L & Ey & S & R)|[R V]]; [left|right].
    + exists j, y. split; [lia|]. split; auto. split; auto. intros j' x' v L' E'. destruct (decide (j' = k)) as [->|]; [rewrite E in E'; injection E' as <-; apply N|apply (R j'); auto; lia].
    + split; auto. intros j y v L E'. destruct (decide (j = k)) as [->|]; [rewrite E in E'; injection E' as <-; apply N|apply (R j); auto; lia].
Qed.
Lemma rc_row x : In x (a_rows T) -> forall r, x = Rc r -> In r (t_cpu T).
Proof. intros I r ->. unfold a_rows in I. rewrite !in_app_iff, !in_map_iff in I. destruct I as [(q & [= ->] & I)|[(q & Q' & _)|(q & Q' & _)]]; [exact I|discriminate Q'..]. Qed.
Lemma store_step w : In w (t_mem T) -> m_store w = 1 -> exists j x, xs !! j = Some x /\ m_clk w = 2 + Z.of_nat j /\ stored x (m_addr w) (m_value w).
Proof.
  intros I S. destruct (mem_touch w I (or_introl S)) as (r & Ir & Rr & C & H & _). specialize (H S). assert (J : In (Rc r) (a_rows T)) by (unfold a_rows; apply in_or_app; left; apply in_map, Ir).
  destruct (row_step _ _ _ _ _ PA TY GC n SF (Rc r) J Rr) as (k & lv & nv & L & _ & _ & CK & _). destruct ST as [LEN SS]. destruct (lookup_lt_is_Some_2 xs k) as [y Ey]; [lia|].
  assert (y = Rc r) as -> by (apply (step_same _ _ _ _ _ PA TY GC n SF k); [exact (SS k y Ey)|split; auto]). exists k, (Rc r). cbn [a_clk] in CK. split; auto. split; [lia|auto].
Qed.
Lemma step_store k x a v : xs !! k = Some x -> stored x a v -> exists w, In w (t_mem T) /\ m_store w = 1 /\ m_clk w = 2 + Z.of_nat k /\ m_addr w = a /\ m_value w = v.
Proof.
  intros E S. destruct ST as [LEN SS]. destruct (SS k x E) as (I & R & C). destruct x as [r|r|r]; [|destruct S..]. pose proof (rc_row _ I r eq_refl) as Ir. cbn [a_clk] in C. rewrite <- C. apply (touch_mem r a v Ir). exact S.
Qed.
Lemma step_load k x a v f : xs !! k = Some x -> loaded x a v -> mem_now k f -> v = f a.
Proof.
  intros E LD M. pose proof ST as [LEN SS]. destruct (SS k x E) as (I & R & C). assert (X : exists w, In w (t_mem T) /\ m_load w = 1 /\ m_clk w = 2 + Z.of_nat k /\ m_addr w = a /\ m_value w = v).
  { destruct x as [r|r|r]; [|destruct LD..]. pose proof (rc_row _ I r eq_refl) as Ir. cbn [a_clk] in C. rewrite <- C. apply (touch_mem r a v Ir). exact LD. }
  destruct X as (w & Iw & L1 & CW & <- & <-). destruct (M (m_addr w) (m_addr_u32 _ mem_acc w Iw)) as [(j & y & LJ & Ey & S & NX)|[N V]].
  - destruct (step_store j y _ _ Ey S) as (w0 & I0 & S0 & C0 & A0 & V0).
    assert (B : m_store w = 0) by (destruct (ms_bit w Iw) as (B1 & B2 & B3 & B4); unfold bit in *; lia).
    destruct (C31_loads_last_store _ _ mem_acc Iw L1) as [(w' & I' & S' & A' & T' & V' & MX)|[NO _]].
    + destruct (store_step w' I' S') as (j' & y' & Ey' & C' & ST'). pose proof (MX w0 I0 S0 A0 ltac:(lia)) as MX'. rewrite S0, S' in MX'.
      destruct (Nat.eq_dec j' j) as [->|NJ]; [|exfalso; apply (NX j' y' (m_value w')); [lia|auto|rewrite <- A'; exact ST']]. rewrite Ey in Ey'. injection Ey' as <-.
      rewrite <- V'. destruct (SS j y Ey) as (IY & _). apply (touch_same store_sel y (m_addr w)); auto. rewrite <- A'. exact ST'.
    + exfalso. specialize (NO w0 I0 S0 A0). lia.
  - destruct (C31_loads_last_store _ _ mem_acc Iw L1) as [(w' & I' & S' & A' & T' & V' & MX)|[_ (i & Ii & Ei & Ai & Vi)]].
    + exfalso. destruct (store_step w' I' S') as (j' & y' & Ey' & C' & ST'). apply (N j' y' (m_value w')); auto; [|rewrite <- A'; exact ST'].
      assert (B : m_store w = 0) by (destruct (ms_bit w Iw) as (B1 & B2 & B3 & B4); unfold bit in *; lia). lia.
    + rewrite V, <- Vi, <- Ai. apply init_value; auto.
Qed.
Lemma step_stored k x a v f : xs !! k = Some x -> stored x a v -> u32 a -> mem_now (S k) f -> v = f a.
Proof.
  intros E S U M. pose proof ST as [_ SS]. destruct (SS k x E) as (I & _). destruct (M a U) as [(j & y & LJ & Ey & SY & NX)|[N _]].
  - destruct (Nat.eq_dec j k) as [->|NJ]; [rewrite E in Ey; injection Ey as <-; apply (touch_same store_sel x a); auto|]. exfalso. apply (NX k x v); auto. lia.
  - exfalso. apply (N k x v); auto.
Qed.
Lemma step_writable k x a v : xs !! k = Some x -> stored x a v -> ro_memory p !! a = None.
Proof. intros E S. destruct (step_store k x a v E S) as (w & I & SW & _ & <- & _). apply store_writable; auto. Qed.
End mem.
