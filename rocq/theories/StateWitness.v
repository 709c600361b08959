(** Executable acceptance checks for the state tables, and demonstration / forged tables they accept. *)
From Verif Require Import StateSpec TableProofs CpuWitness CpuTrace StateProofs WordProofs.
Open Scope Z_scope.

(** [trace_sat] for tables given literally *)
Definition fz_all (l : list Z) : bool := forallb fzb l.
Definition check_air {R} (A : air R) (t : list R) : bool :=
  negb (length t =? 0)%nat
  && match t with r :: _ => fz_all (a_first A r) | [] => true end
  && forallb (fun '(r, r') => fz_all (a_always A r r')) (windows t)
  && forallb (fun '(r, r') => fz_all (a_transition A r r')) (combine t (tail t))
  && match stdpp.list.last t with Some r => fz_all (a_last A r) | None => true end.
Lemma fz_all_ok l : fz_all l = true -> all_zero l.
Proof. unfold fz_all. rewrite forallb_forall. intros H. apply Forall_forall. intros x I. apply fzb_ok, H, I. Qed.
Lemma combine_tail_In {R} (t : list R) k r r' : t !! k = Some r -> t !! S k = Some r' -> In (r, r') (combine t (tail t)).
Proof.
  revert k. induction t as [|x t IH]; intros k E E'; [discriminate|]. destruct t as [|y t]; [destruct k; discriminate|].
  destruct k as [|k]; cbn in *; [injection E as ->; injection E' as ->; left; reflexivity|right; apply (IH k); auto].
Qed.
Lemma check_air_ok {R} (A : air R) t : check_air A t = true -> trace_sat A t.
Proof.
  unfold check_air. rewrite !andb_true_iff. intros ((((N & F) & W) & T) & L). rewrite forallb_forall in W, T. constructor.
  - intros ->. discriminate.
  - intros r E. destruct t; [discriminate|]. injection E as ->. apply fz_all_ok, F.
  - intros i r r' E E'. apply fz_all_ok. apply (W (r, r')). eapply windows_In; eauto.
  - intros i r r' E E'. apply fz_all_ok. apply (T (r, r')). eapply combine_tail_In; eauto.
  - intros r E. rewrite E in L. apply fz_all_ok, L.
Qed.
Definition check_rc (e : entries) : bool := forallb (fun '(v, f) => match v with [x] => fzb f || u32b (x mod P) | _ => true end) e.
Lemma check_rc_ok e : check_rc e = true -> range_checked e.
Proof.
  unfold check_rc, range_checked. rewrite forallb_forall. intros H v f I NZ. specialize (H _ I). cbn in H. apply orb_true_iff in H as [H|H]; [apply fzb_ok in H; tauto|apply u32b_ok, H].
Qed.
Definition check_skel (entry : Z) (t : list skel) : bool :=
  check_air (skel_air entry) t && forallb (fun r => canonb (sk_clk r) && canonb (sk_pc r) && canonb (sk_running r)) t && (Z.of_nat (length t) <=? 2 ^ 32).
Lemma check_skel_ok entry t : check_skel entry t = true -> skel_accepted entry t.
Proof.
  unfold check_skel. rewrite !andb_true_iff. intros ((A & C) & L). rewrite forallb_forall in C. constructor.
  - apply check_air_ok, A.
  - apply Forall_forall. intros r I. specialize (C r I). rewrite !andb_true_iff in C. destruct C as ((C1 & C2) & C3). auto using canonb_ok.
  - apply Z.leb_le in L. exact L.
Qed.
Definition check_reg (t : list regrow) : bool :=
  check_air reg_air t
  && forallb (fun r => canonb (g_addr r) && canonb (g_value r) && canonb (g_clk r) && canonb (g_init r) && canonb (g_read r) && canonb (g_write r)) t
  && (Z.of_nat (length t) <=? 2 ^ 32) && check_rc (reg_rc_looking t)
  && forallb (fun r => negb (g_init r =? 1) || (g_clk r =? 0)) t && forallb (fun r => negb (g_rw r =? 1) || (g_clk r <? 2 ^ 40)) t.
Lemma check_reg_ok t : check_reg t = true -> reg_accepted t.
Proof.
  unfold check_reg. rewrite !andb_true_iff. intros (((((A & C) & L) & RC) & I0) & CK). rewrite forallb_forall in C, I0, CK. constructor.
  - apply check_air_ok, A.
  - apply Forall_forall. intros r I. specialize (C r I). rewrite !andb_true_iff in C. destruct C as (((((C1 & C2) & C3) & C4) & C5) & C6). unfold reg_canon. auto 10 using canonb_ok.
  - apply Z.leb_le in L. exact L.
  - apply check_rc_ok, RC.
  - apply Forall_forall. intros r I E. specialize (I0 r I). rewrite E in I0. cbn in I0. apply Z.eqb_eq in I0. exact I0.
  - apply Forall_forall. intros r I E. specialize (CK r I). rewrite E in CK. cbn [Z.eqb negb orb] in CK. apply Z.ltb_lt in CK. exact CK.
Qed.
Definition u8b (x : Z) : bool := (0 <=? x) && (x <? 256).
Definition check_mem (t : list memrow) : bool :=
  check_air mem_air t
  && forallb (fun r => canonb (m_writable r) && canonb (m_addr r) && canonb (m_clk r) && canonb (m_store r) && canonb (m_load r) && canonb (m_init r) && canonb (m_value r)) t
  && (Z.of_nat (length t) <=? 2 ^ 32) && check_rc (mem_rc_looking t)
  && forallb (fun r => fzb (m_executed r) || u8b (m_value r)) t
  && forallb (fun r => negb (m_init r =? 1) || (m_clk r =? 0) || (m_clk r =? 1)) t && forallb (fun r => negb (m_store r + m_load r =? 1) || (m_clk r <? 2 ^ 40)) t.
Lemma check_mem_ok t : check_mem t = true -> mem_accepted t.
Proof.
  unfold check_mem. rewrite !andb_true_iff. intros ((((((A & C) & L) & RC) & U) & I0) & CK). rewrite forallb_forall in C, I0, CK, U. constructor.
  - apply check_air_ok, A.
  - apply Forall_forall. intros r I. specialize (C r I). rewrite !andb_true_iff in C. destruct C as ((((((C1 & C2) & C3) & C4) & C5) & C6) & C7). unfold mem_canon. auto 10 using canonb_ok.
  - apply Z.leb_le in L. exact L.
  - apply check_rc_ok, RC.
  - intros v f I NZ. unfold mem_u8_looking in I. apply in_map_iff in I as (r & E & I). injection E as <- <-. specialize (U r I). apply orb_true_iff in U as [U|U]; [apply fzb_ok in U; tauto|].
    unfold u8b in U. apply andb_true_iff in U as [U1 U2]. apply Z.leb_le in U1. apply Z.ltb_lt in U2. unfold u8. lia.
  - apply Forall_forall. intros r I E. specialize (I0 r I). rewrite E in I0. cbn in I0. apply orb_true_iff in I0 as [K|K]; apply Z.eqb_eq in K; auto.
  - apply Forall_forall. intros r I E. specialize (CK r I). rewrite E in CK. cbn [Z.eqb negb orb] in CK. apply Z.ltb_lt in CK. exact CK.
Qed.
Definition check_word (n : nat) (A : air wordrow) (t : list wordrow) : bool :=
  check_air A t && forallb (fun r => (length (w_addrs r) =? n)%nat && (length (w_limbs r) =? n)%nat && forallb canonb ([w_clk r; w_store r; w_load r] ++ w_addrs r ++ w_limbs r)) t
  && (Z.of_nat (length t) <=? 2 ^ 32).
Lemma check_word_ok n A t : check_word n A t = true -> trace_sat A t /\ Forall (word_typed n) t /\ max_rows t.
Proof.
  unfold check_word. rewrite !andb_true_iff. intros ((S & C) & L). rewrite forallb_forall in C. split; [apply check_air_ok, S|]. split; [|apply Z.leb_le in L; exact L].
  apply Forall_forall. intros r I. specialize (C r I). rewrite !andb_true_iff, !Nat.eqb_eq in C. destruct C as ((C1 & C2) & C3). split; [exact C1|]. split; [exact C2|].
  rewrite forallb_forall in C3. apply Forall_forall. intros x J. apply canonb_ok, C3, J.
Qed.
Definition check_mem_system (cpus : list cpu) (half full : list wordrow) (others : entries) (mem : list memrow) : bool :=
  check_table cpus && check_word 2 half_air half && check_word 4 full_air full && check_mem mem
  && forallb (fun e => (snd e =? 0) || (snd e =? 1)) others && (Z.of_nat (length others) <=? 2 ^ 40)
  && ctl_check (cpu_byte_looking cpus ++ others ++ word_limb_looking 4 full ++ word_limb_looking 2 half) (mem_looked mem)
  && ctl_check (cpu_half_looking cpus) (word_looked half) && ctl_check (cpu_full_looking cpus) (word_looked full).
Lemma check_mem_system_ok cpus half full others mem : check_mem_system cpus half full others mem = true -> mem_system cpus half full others mem.
Proof.
  unfold check_mem_system. rewrite !andb_true_iff. intros ((((((((C & H) & F) & M) & O) & OL) & C1) & C2) & C3).
  apply check_word_ok in H as (H1 & H2 & H3). apply check_word_ok in F as (F1 & F2 & F3). constructor; auto.
  - apply check_table_ok, C.
  - apply check_mem_ok, M.
  - rewrite forallb_forall in O. apply Forall_forall. intros e I. specialize (O e I). apply orb_true_iff in O as [K|K]; apply Z.eqb_eq in K; unfold bit; auto.
  - apply Z.leb_le, OL.
  - apply ctl_check_ok, C1.
  - apply ctl_check_ok, C2.
  - apply ctl_check_ok, C3.
Qed.

(** ** Registers *)
(** registers [n], [n+1], ... initialised to 0 *)
Definition inits (from to_ : nat) : list regrow := map (fun k => mkReg (Z.of_nat k) 0 0 1 0 0) (seq from (S to_ - from)).
(** x1 initialised to 5, read, written 7, read; x3 written and read; padding *)
Definition demo_regs : list regrow :=
  [mkReg 1 5 0 1 0 0; mkReg 1 5 2 0 1 0; mkReg 1 7 2 0 0 1; mkReg 1 7 4 0 1 0] ++ inits 2 3 ++ [mkReg 3 9 3 0 0 1; mkReg 3 9 4 0 1 0]
  ++ inits 4 31 ++ repeat (mkReg 31 0 0 0 0 0) 28.
(** a read of x1 in the first row, before the row that initialises x1 to 5 *)
Definition forged_regs : list regrow :=
  [mkReg 1 77 4 0 1 0; mkReg 1 5 0 1 0 0; mkReg 1 5 2 0 1 0] ++ inits 2 31 ++ repeat (mkReg 31 0 0 0 0 0) 31.
(** x2 initialised twice *)
Definition forged_regs2 : list regrow :=
  inits 1 2 ++ [mkReg 2 0 2 0 1 0; mkReg 2 9 0 1 0 0; mkReg 2 9 3 0 1 0] ++ inits 3 31 ++ repeat (mkReg 31 0 0 0 0 0) 30.
Lemma demo_regs_ok : reg_accepted demo_regs /\ reg_accepted forged_regs /\ reg_accepted forged_regs2.
Proof. repeat split_and; apply check_reg_ok; vm_compute; reflexivity. Qed.

(** ** Memory *)
Definition mem_pad (n : nat) : list memrow := repeat (mkMemRow 1 4294967295 0 0 0 0 0) n.
Definition minit (a v w : Z) : memrow := mkMemRow w a (if v =? 0 then 0 else 1) 0 0 1 v.
Definition demo_mem : list memrow :=
  [minit 0 0 1; minit 4 9 1; mkMemRow 1 4 3 1 0 0 8; mkMemRow 1 4 5 0 1 0 8; minit 100 7 0; mkMemRow 0 100 4 0 1 0 7; minit 4294967295 0 1] ++ mem_pad 1.
Lemma demo_mem_ok : mem_accepted demo_mem.
Proof. apply check_mem_ok; vm_compute; reflexivity. Qed.
(** tables around one CPU row that accesses memory at address 1000 at clock 2 *)
Definition word_pad (n k : nat) : list wordrow := repeat (mkWordRow 0 0 0 (repeat 0 n) (repeat 0 n)) k.
(** value [v] at address 1000 before the access; the row stores [sv] or loads *)
Definition bytes_at (n : nat) (v : Z) : list (Z * Z) := map (fun i => (1000 + Z.of_nat i, v / 256 ^ Z.of_nat i mod 256)) (seq 0 n).
Definition mem_loading (n : nat) (v : Z) : list memrow :=
  [minit 0 0 1] ++ flat_map (fun '(a, b) => [minit a b 1; mkMemRow 1 a 2 0 1 0 b]) (bytes_at n v) ++ [minit 4294967295 0 1] ++ mem_pad (14 - 2 * n).
Definition mem_storing (n : nat) (v : Z) : list memrow :=
  [minit 0 0 1] ++ flat_map (fun '(a, b) => [minit a 0 1; mkMemRow 1 a 2 1 0 0 b]) (bytes_at n v) ++ [minit 4294967295 0 1] ++ mem_pad (14 - 2 * n).
Definition word_access (n : nat) (st ld v : Z) : list wordrow :=
  mkWordRow 2 st ld (map fst (bytes_at n v)) (map snd (bytes_at n v)) :: word_pad n 7.
Import RvSpec.
Definition demo_lb : cpu := with_mem (honest 8 (Load wB false 3 2 (-4)) 0 1004 200 12) 4294967240 1 200 1000 0 0 0.
Definition demo_lhu : cpu := with_mem (honest 8 (Load wH true 3 2 (-4)) 0 1004 40000 12) 40000 0 40000 1000 0 0 0.
Definition demo_sh : cpu := with_mem (honest 8 (Store wH 2 1 8) 70000 992 0 12) 0 0 4464 1000 70000 65535 (Z.lxor 70000 65535).
Lemma demo_systems :
  mem_system (table_of demo_lb) (word_pad 2 8) (word_pad 4 8) [] (mem_loading 1 200) /\
  mem_system (table_of demo_lhu) (word_access 2 0 1 40000) (word_pad 4 8) [] (mem_loading 2 40000) /\
  mem_system (table_of demo_sh) (word_access 2 1 0 4464) (word_pad 4 8) [] (mem_storing 2 4464).
Proof. repeat split_and; apply check_mem_system_ok; vm_compute; reflexivity. Qed.
(** forged rows in complete memory systems: LB with a wrong sign, LW with a wrong result, SB and SW storing a wrong value *)
Lemma forged_systems :
  mem_system (table_of forged_lb) (word_pad 2 8) (word_pad 4 8) [] (mem_loading 1 5) /\
  mem_system (table_of forged_lw) (word_pad 2 8) (word_access 4 0 1 5) [] (mem_loading 4 5) /\
  mem_system (table_of forged_sb) (word_pad 2 8) (word_pad 4 8) [] (mem_storing 1 9) /\
  mem_system (table_of forged_sw) (word_pad 2 8) (word_access 4 1 0 9) [] (mem_storing 4 9).
Proof. repeat split_and; apply check_mem_system_ok; vm_compute; reflexivity. Qed.
