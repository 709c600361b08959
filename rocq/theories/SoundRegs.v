(** C80: in accepted tables, a running row reads from a register what the last preceding row wrote to it. *)
From Verif Require Import SoundSpec StateProofs TableProofs CpuProofs CpuTrace WordProofs WordProps StateProps RunSpec SoundRows.
Open Scope Z_scope.

(** the value of register [a] after the rows [xs] *)
Definition lastw (xs : list arow) (a : Z) : Z := fold_left (fun acc x => if decide (a_rd x = a) then a_dst x else acc) xs 0.
Lemma lastw_snoc xs x a : lastw (xs ++ [x]) a = if decide (a_rd x = a) then a_dst x else lastw xs a.
Proof. unfold lastw. rewrite fold_left_app. reflexivity. Qed.
Lemma lastw_none xs a : (forall j x, xs !! j = Some x -> a_rd x <> a) -> lastw xs a = 0.
Proof.
  induction xs as [|x xs IH] using rev_ind; intros H; [reflexivity|]. rewrite lastw_snoc, decide_False; [apply IH|].
  - intros j y E. apply (H j). apply lookup_app_l_Some, E.
  - apply (H (length xs)). apply list_lookup_middle. reflexivity.
Qed.
Lemma lastw_at xs a j x : xs !! j = Some x -> a_rd x = a -> (forall j' y, (j < j')%nat -> xs !! j' = Some y -> a_rd y <> a) -> lastw xs a = a_dst x.
Proof.
  revert j x. induction xs as [|z xs IH] using rev_ind; intros j x E R H; [destruct j; discriminate E|]. rewrite lastw_snoc.
  destruct (decide (j = length xs)) as [->|N].
  - rewrite list_lookup_middle in E by reflexivity. injection E as ->. rewrite decide_True by auto. reflexivity.
  - assert (L : (j < length xs)%nat) by (apply lookup_lt_Some in E; rewrite app_length in E; cbn in E; lia). rewrite decide_False.
    + apply (IH j); auto; [rewrite lookup_app_l in E by auto; exact E|]. intros j' y L' E'. apply (H j'); auto. apply lookup_app_l_Some, E'.
    + apply (H (length xs)); auto. apply list_lookup_middle. reflexivity.
Qed.

Lemma mult_zero v e : Forall (fun x => snd x = 0) e -> mult_of v e = 0.
Proof. induction 1 as [|[t f] e B F IH]; [reflexivity|]. cbn in B. rewrite mult_of_cons, IH. case_decide; lia. Qed.
Lemma mult_app v a b : mult_of v (a ++ b) = mult_of v a + mult_of v b.
Proof. unfold mult_of. rewrite map_app. apply sumZ_app. Qed.

Ltac inj2 E := pose proof (f_equal fst E) as E1; pose proof (f_equal snd E) as E2; cbn [fst snd] in E1, E2; subst; clear E.
#[local] Opaque is_running.
Section regs.
Context (K : p2consts) (p : program) (events casts : list Z) (T : tables).
Context (PA : proof_accepted K p events casts T) (TY : tables_typed T) (GC : gaps_closed p T) (FR : no_devices T) (GP : good_program p).
Context (n : nat) (SF : skel_facts p T n).

Definition core_looking := cpu_reg_looking (t_cpu T) ++ add_reg_looking (t_add T) ++ blt_reg_looking (t_blt T) ++ reginit_looking (t_reginit T).
Definition reg_looking := cpu_reg_looking (t_cpu T) ++ add_reg_looking (t_add T) ++ blt_reg_looking (t_blt T) ++ all_sd_reg_looking (t_tape T) ++ sp_reg_looking (t_sponge T) ++ reginit_looking (t_reginit T).
Lemma core_mult v : mult_of v reg_looking = mult_of v core_looking.
Proof.
  unfold reg_looking, core_looking. rewrite !mult_app. pose proof (fr_devices _ FR) as D. apply List.Forall_app in D as [D1 D2]. rewrite (mult_zero v _ D1), (mult_zero v _ D2). lia.
Qed.
Lemma rows_in_cpu r : In r (t_cpu T) -> In (Rc r) (a_rows T).
Proof. intros I. unfold a_rows. apply in_or_app. left. apply in_map, I. Qed.
Lemma rows_in_add r : In r (t_add T) -> In (Ra r) (a_rows T).
Proof. intros I. unfold a_rows. apply in_or_app. right. apply in_or_app. left. apply in_map, I. Qed.
Lemma rows_in_blt r : In r (t_blt T) -> In (Rb r) (a_rows T).
Proof. intros I. unfold a_rows. apply in_or_app. right. apply in_or_app. right. apply in_map, I. Qed.
Lemma reginit_rows : forall r, In r (t_reginit T) -> ri_value r = 0 /\ 1 <= ri_addr r <= 31.
Proof. apply List.Forall_forall. rewrite (pa_regs _ _ _ _ _ PA). repeat (apply List.Forall_cons; [cbn; lia|]). apply List.Forall_nil. Qed.
(** who sends what *)
Lemma core_of t f : In (t, f) core_looking ->
  (exists x, In x (a_rows T) /\ f = a_run x /\ (t = [a_clk x; 1; a_rs1 x; a_v1 x] \/ t = [a_clk x; 1; a_rs2 x; a_v2 x] \/ t = [a_clk x; 2; a_rd x; a_dst x])) \/
  (exists a, 1 <= a <= 31 /\ t = [0; 0; a; 0] /\ f = 1).
Proof.
  unfold core_looking, cpu_reg_looking, add_reg_looking, blt_reg_looking, reginit_looking. rewrite !in_app_iff, !in_map_iff.
  intros [[(r & E & I)|[(r & E & I)|(r & E & I)]]|[[(r & E & I)|[(r & E & I)|(r & E & I)]]|[[(r & E & I)|(r & E & I)]|(r & E & I)]]]; inj2 E.
  - left. exists (Rc r). split; [apply rows_in_cpu, I|]. split; [reflexivity|]. left. reflexivity.
  - left. exists (Rc r). split; [apply rows_in_cpu, I|]. split; [reflexivity|]. right. left. reflexivity.
  - left. exists (Rc r). split; [apply rows_in_cpu, I|]. split; [reflexivity|]. right. right. reflexivity.
  - left. exists (Ra r). split; [apply rows_in_add, I|]. split; [reflexivity|]. left. reflexivity.
  - left. exists (Ra r). split; [apply rows_in_add, I|]. split; [reflexivity|]. right. left. reflexivity.
  - left. exists (Ra r). split; [apply rows_in_add, I|]. split; [reflexivity|]. right. right. reflexivity.
  - left. exists (Rb r). split; [apply rows_in_blt, I|]. split; [reflexivity|]. left. reflexivity.
  - left. exists (Rb r). split; [apply rows_in_blt, I|]. split; [reflexivity|]. right. left. reflexivity.
  - right. exists (ri_addr r). destruct (reginit_rows r I) as [-> B]. auto.
Qed.
Lemma core_in x : In x (a_rows T) -> a_run x = 1 ->
  In ([a_clk x; 1; a_rs1 x; a_v1 x], 1) core_looking /\ In ([a_clk x; 1; a_rs2 x; a_v2 x], 1) core_looking /\ (a_rd x <> 0 -> In ([a_clk x; 2; a_rd x; a_dst x], 1) core_looking).
Proof.
  unfold core_looking, cpu_reg_looking, add_reg_looking, blt_reg_looking, a_rows. rewrite !in_app_iff, !in_map_iff.
  intros [(r & <- & I)|[(r & <- & I)|(r & <- & I)]]; cbn [a_run a_clk a_rs1 a_rs2 a_v1 a_v2 a_rd a_dst]; intros R.
  - split; [|split]; [left; left|left; right; left|intros _; left; right; right]; exists r; rewrite R; auto.
  - split; [|split]; [right; left; left|right; left; right; left|intros _; right; left; right; right]; exists r; rewrite R; auto.
  - split; [|split]; [right; right; left; left|right; right; left; right|intros N; exfalso; apply N; reflexivity]; exists r; rewrite R; auto.
Qed.
Lemma core_bits : Forall (fun e => bit (snd e)) core_looking.
Proof.
  apply List.Forall_forall. intros [t f] I. cbn [snd]. apply core_of in I as [(x & I & -> & _)|(a & _ & _ & ->)]; [|right; reflexivity].
  pose proof (run_bits _ _ _ _ _ PA TY GC) as B. rewrite List.Forall_forall in B. apply B, I.
Qed.
Lemma core_few v : 0 <= mult_of v core_looking < P.
Proof.
  pose proof (mult_of_bits v _ core_bits) as B. enough (Z.of_nat (length core_looking) < P) by lia. clear B.
  unfold core_looking, cpu_reg_looking, add_reg_looking, blt_reg_looking, reginit_looking. rewrite !app_length, !map_length. rewrite (pa_regs _ _ _ _ _ PA). cbn [length]. destruct (ty_cpu _ TY) as [_ A], (ty_add _ TY) as [_ B], (ty_blt _ TY) as [_ C]. unfold max_rows, P in *.
  match goal with |- context[length (pad_last ?d ?l)] => change (length (pad_last d l)) with 32%nat end. lia.
Qed.
(** from the register table to rows *)
Definition rtuple (r : regrow) := [g_clk r; 0 * g_init r + 1 * g_read r + 2 * g_write r; g_addr r; g_value r].
Lemma reg_canons r : In r (t_reg T) -> reg_canon r.
Proof. destruct (ty_reg _ TY) as [C _]. rewrite List.Forall_forall in C. apply C. Qed.
Lemma reg_addr_k k r : t_reg T !! k = Some r -> 1 <= g_addr r <= 1 + Z.of_nat k.
Proof.
  pose proof (ch_reg _ _ _ (pa_constraints _ _ _ _ _ PA)) as S. revert r. induction k as [|k IH]; intros r E.
  - pose proof (ts_first _ _ S r E) as Z0. cbn in Z0. apply List.Forall_inv in Z0. destruct (reg_canons r (lookup_In _ _ _ E)) as (C1 & _). apply fzero_small in Z0; unfold canon, P in *; lia.
  - destruct (lookup_lt_is_Some_2 (t_reg T) k) as [q Eq]; [apply lookup_lt_Some in E; lia|]. specialize (IH q Eq). pose proof (ts_transition _ _ S k q r Eq E) as Z0. cbn [reg_air a_transition] in Z0. unfold all_zero in Z0. rewrite !List.Forall_cons_iff in Z0. destruct Z0 as (_ & _ & _ & Z0 & _).
    destruct (reg_canons q (lookup_In _ _ _ Eq)) as (C1 & _). destruct (reg_canons r (lookup_In _ _ _ E)) as (C1' & _).
    destruct (ty_reg _ TY) as [_ M]. apply lookup_lt_Some in E. unfold max_rows in M. clear - Z0 C1 C1' IH M E. apply fzero_mul in Z0 as [Z0|Z0]; apply fzero_small in Z0; unfold canon, P in *; lia.
Qed.
Lemma reg_addr r : In r (t_reg T) -> 1 <= g_addr r < P.
Proof. intros I. destruct (reg_canons r I) as (C & _). apply In_lookup in I as (k & E). apply reg_addr_k in E. unfold canon in C. lia. Qed.
Lemma reg_lk_bits : Forall (fun e => bit (snd e)) (reg_looked (t_reg T)).
Proof.
  apply List.Forall_forall. intros [t f] I. unfold reg_looked in I. apply in_map_iff in I as (r & E & I). inj2 E. cbn [snd]. destruct (reg_bits _ _ _ _ _ PA TY r I) as (_ & _ & _ & B). unfold g_used in B. replace (_ + _ + _) with (g_init r + g_read r + g_write r) by lia. exact B.
Qed.
Lemma looked_mult v c o a x : v = [c; o; a; x] -> canon a -> a <> 0 \/ o = 0 ->
  mult_of v (reg_looked (t_reg T) ++ zread_looked (t_zread T) ++ zwrite_looked (t_zwrite T)) = mult_of v (reg_looked (t_reg T)).
Proof.
  intros -> C N. rewrite !mult_app. rewrite (mult_of_nokey _ (zread_looked _)), (mult_of_nokey _ (zwrite_looked _)); [lia| |];
    (intros t m I E; apply in_map_iff in I as (r & F & _); inj2 F; apply key4 in E as (_ & E1 & E2 & _); unfold feq in *; unfold canon in C; destruct N as [N| ->]; [rewrite (Z.mod_small a) in E2 by lia; change (0 mod P) with 0 in E2; lia|discriminate E1]).
Qed.
Lemma reg_row_sent r : In r (t_reg T) -> g_used r = 1 -> exists t f, In (t, f) core_looking /\ tuple_key t = tuple_key (rtuple r) /\ f = 1.
Proof.
  intros I U. assert (J : In (rtuple r, 1) (reg_looked (t_reg T))).
  { unfold reg_looked. apply in_map_iff. exists r. split; auto. unfold rtuple. f_equal. unfold g_used in U. lia. }
  pose proof (mult_of_pos _ _ reg_lk_bits J) as M. pose proof (mult_of_bits (rtuple r) _ reg_lk_bits) as M'.
  destruct (ty_reg _ TY) as [_ LEN]. assert (L : length (reg_looked (t_reg T)) = length (t_reg T)) by apply map_length. unfold max_rows in LEN.
  pose proof (lh_register _ (pa_lookups _ _ _ _ _ PA) (rtuple r)) as C. fold reg_looking in C. rewrite core_mult in C. destruct (reg_addr r I) as [A1 A2].
  rewrite (looked_mult (rtuple r) _ _ _ _ eq_refl) in C by (unfold canon; lia).
  destruct (ctl_nonzero_at (reg_looked (t_reg T)) core_looking (rtuple r)) as (t & f & I' & KE & NZ).
  - unfold fzero in *. replace (_ - _) with (- (mult_of (rtuple r) core_looking - mult_of (rtuple r) (reg_looked (t_reg T)))) by lia. apply Z.mod_opp_l_z; [unfold P; lia|exact C].
  - clear - M M' L LEN. unfold P. lia.
  - exists t, f. split; auto. split; auto. apply bit_nz; auto. pose proof core_bits as B. rewrite List.Forall_forall in B. apply (B _ I').
Qed.
Lemma row_sent c o a x : In ([c; o; a; x], 1) core_looking -> canon a -> a <> 0 -> exists r, In r (t_reg T) /\ g_used r = 1 /\ tuple_key (rtuple r) = tuple_key [c; o; a; x].
Proof.
  intros I C N. pose proof (mult_of_pos _ _ core_bits I) as M. pose proof (core_few [c; o; a; x]) as M'.
  pose proof (lh_register _ (pa_lookups _ _ _ _ _ PA) [c; o; a; x]) as CT. fold reg_looking in CT. rewrite core_mult in CT. rewrite (looked_mult _ _ _ _ _ eq_refl C (or_introl N)) in CT.
  destruct (ctl_nonzero_at core_looking (reg_looked (t_reg T)) [c; o; a; x] CT) as (t & f & I' & KE & NZ); [lia|].
  unfold reg_looked in I'. apply in_map_iff in I' as (r & E & I'). inj2 E. exists r. split; auto. split; [|exact KE].
  destruct (reg_bits _ _ _ _ _ PA TY r I') as (_ & _ & _ & B). unfold g_used in *. replace (_ + _ + _) with (g_init r + g_read r + g_write r) in NZ by lia. apply bit_nz; auto.
Qed.
Lemma steps_few : Z.of_nat n < 2 ^ 32.
Proof. destruct SF as (L & _). pose proof (skel_len T TY). lia. Qed.
Lemma row_clk x : In x (a_rows T) -> a_run x = 1 -> 2 <= a_clk x < 2 + Z.of_nat n.
Proof. intros I R. destruct (row_step _ _ _ _ _ PA TY GC n SF x I R) as (k & lv & nv & L & _ & _ & -> & _). lia. Qed.
Lemma op_bits i r w : bit i -> bit r -> bit w -> bit (i + r + w) -> 0 <= 0 * i + 1 * r + 2 * w < 3.
Proof. unfold bit. lia. Qed.
Lemma reg_acc : reg_accepted (t_reg T).
Proof.
  pose proof steps_few as SFEW. constructor.
  - apply (ch_reg _ _ _ (pa_constraints _ _ _ _ _ PA)).
  - apply (ty_reg _ TY).
  - apply (ty_reg _ TY).
  - intros v f I F. apply (rc_u32' _ _ _ _ _ PA TY GC) with (f := f); auto. unfold rc_all. apply in_or_app; right. apply in_or_app; right. apply in_or_app; right. exact I.
  - apply List.Forall_forall. intros r I G. destruct (reg_bits _ _ _ _ _ PA TY r I) as (B1 & B2 & B3 & B4).
    assert (U : g_used r = 1) by (unfold g_used, bit in *; lia). destruct (reg_row_sent r I U) as (t & f & J & KE & ->). destruct (reg_canons r I) as (C1 & C2 & C3 & _).
    assert (Z0 : g_read r = 0 /\ g_write r = 0) by (unfold g_used, bit in *; lia). destruct Z0 as [Z1 Z2]. unfold rtuple in KE. rewrite Z1, Z2 in KE.
    apply core_of in J as [(x & IX & RX & [-> | [-> | ->]])|(a & _ & -> & _)]; apply key4 in KE as (K1 & K2 & _); unfold feq in *; try (exfalso; rewrite ?Z.mul_0_l, ?Z.mul_0_r in K2; vm_compute in K2; discriminate K2). rewrite Z.mul_0_l in K2. change (0 mod P) with 0 in K1. unfold canon in C3. rewrite Z.mod_small in K1 by lia. auto.
  - apply List.Forall_forall. intros r I G. destruct (reg_bits _ _ _ _ _ PA TY r I) as (B1 & B2 & B3 & B4).
    assert (U : g_used r = 1) by (unfold g_used, g_rw, bit in *; lia). destruct (reg_row_sent r I U) as (t & f & J & KE & ->). destruct (reg_canons r I) as (C1 & C2 & C3 & _). unfold rtuple in KE.
    apply core_of in J as [(x & IX & RX & TX)|(a & _ & -> & _)].
    + pose proof (row_clk x IX (eq_sym RX)) as CX. assert (K1 : feq (a_clk x) (g_clk r)) by (destruct TX as [-> | [-> | ->]]; apply key4 in KE as (K1 & _); exact K1).
      unfold feq, canon in *. rewrite (Z.mod_small (g_clk r)), (Z.mod_small (a_clk x)) in K1 by (unfold P in *; lia). lia.
    + apply key4 in KE as (K1 & _). unfold feq, canon in *. change (0 mod P) with 0 in K1. rewrite (Z.mod_small (g_clk r)) in K1 by lia. lia.
Qed.

(** the steps in order *)
Definition is_step (k : nat) (x : arow) : Prop := In x (a_rows T) /\ a_run x = 1 /\ a_clk x = 2 + Z.of_nat k.
Definition steps (xs : list arow) : Prop := length xs = n /\ (forall k x, xs !! k = Some x -> is_step k x).
Lemma steps_ex : exists xs, steps xs.
Proof.
  assert (H : forall m, (m <= n)%nat -> exists xs, length xs = m /\ (forall k x, xs !! k = Some x -> is_step k x)).
  { induction m as [|m IH]; intros L; [exists []; split; auto; intros k x E; destruct k; discriminate E|]. destruct IH as (xs & LX & HX); [lia|].
    destruct SF as ((N0 & N1) & _). destruct (lookup_lt_is_Some_2 (t_skel T) m) as (lv & A); [lia|]. destruct (lookup_lt_is_Some_2 (t_skel T) (S m)) as (nv & B); [lia|].
    destruct (row_of_step _ _ _ _ _ PA TY GC n SF m lv nv A B ltac:(lia)) as (x & IX & RX & CX & _). exists (xs ++ [x]). split; [rewrite app_length; cbn; lia|].
    intros k y E. apply lookup_app_Some in E as [E|[L' E]]; [apply HX, E|]. assert (k - length xs = 0)%nat as Z0 by (apply lookup_lt_Some in E; cbn in E; lia). rewrite Z0 in E. injection E as <-. replace k with m by lia. split; auto. }
  apply (H n). lia.
Qed.
Lemma step_same k x y : is_step k x -> is_step k y -> x = y.
Proof.
  intros (IX & RX & CX) (IY & RY & CY). apply In_lookup in IX as (i & EI), IY as (j & EJ). assert (i = j) by (eapply (row_unique _ _ _ _ _ PA TY GC n SF); eauto; lia). subst j. rewrite EI in EJ. injection EJ as <-. reflexivity.
Qed.
Lemma row_dst_canon x : In x (a_rows T) -> canon (a_dst x) /\ canon (a_v1 x) /\ canon (a_v2 x) /\ canon (a_rd x) /\ canon (a_rs1 x) /\ canon (a_rs2 x).
Proof.
  unfold a_rows. rewrite !in_app_iff, !in_map_iff. intros [(r & <- & I)|[(r & <- & I)|(r & <- & I)]]; cbn [a_dst a_v1 a_v2 a_rd a_rs1 a_rs2].
  - repeat split; apply (cpu_col _ TY r); auto; unfold cpu_columns; apply in_or_app; right; apply in_or_app; right; apply in_or_app; left; cbn; auto 20.
  - destruct (ty_add _ TY) as [C _]. rewrite List.Forall_forall in C. specialize (C r I). rewrite !List.Forall_cons_iff in C. intuition.
  - destruct (ty_blt _ TY) as [C _]. rewrite List.Forall_forall in C. specialize (C r I). rewrite !List.Forall_cons_iff in C. assert (canon 0) by (unfold canon, P; lia). intuition.
Qed.
Lemma mod_eq a b : canon a -> canon b -> feq a b -> a = b.
Proof. intros. apply canon_mod; auto. Qed.
Lemma op_of i r w : bit i -> bit r -> bit w -> bit (i + r + w) -> feq (0 * i + 1 * r + 2 * w) 1 -> r = 1 /\ w = 0.
Proof. intros A B C D E. pose proof (op_bits _ _ _ A B C D). unfold feq in E. rewrite (Z.mod_small _ P) in E by (unfold P; lia). change (1 mod P) with 1 in E. unfold bit in *. lia. Qed.
Lemma op_of2 i r w : bit i -> bit r -> bit w -> bit (i + r + w) -> feq (0 * i + 1 * r + 2 * w) 2 -> r = 0 /\ w = 1.
Proof. intros A B C D E. pose proof (op_bits _ _ _ A B C D). unfold feq in E. rewrite (Z.mod_small _ P) in E by (unfold P; lia). change (2 mod P) with 2 in E. unfold bit in *. lia. Qed.
(** a write of the register table is that of a step *)
Lemma write_row w : In w (t_reg T) -> g_write w = 1 -> exists j x, (j < n)%nat /\ is_step j x /\ g_clk w = 2 + Z.of_nat j /\ a_rd x = g_addr w /\ a_dst x = g_value w.
Proof.
  intros I W. destruct (reg_bits _ _ _ _ _ PA TY w I) as (B1 & B2 & B3 & B4). assert (U : g_used w = 1 /\ g_read w = 0) by (unfold g_used, bit in *; lia). destruct U as [U R].
  destruct (reg_row_sent w I U) as (t & f & J & KE & ->). destruct (reg_canons w I) as (C1 & C2 & C3 & _). unfold rtuple in KE. rewrite W, R in KE.
  apply core_of in J as [(x & IX & RX & TX)|(a & _ & -> & _)]; [|exfalso; apply key4 in KE as (_ & K2 & _); unfold feq in K2; rewrite Z.mul_0_l in K2; vm_compute in K2; discriminate K2].
  symmetry in RX. destruct TX as [-> | [-> | ->]]; [exfalso; apply key4 in KE as (_ & K2 & _); unfold feq in K2; rewrite Z.mul_0_l in K2; vm_compute in K2; discriminate K2..|].
  apply key4 in KE as (K1 & _ & K3 & K4). destruct (row_step _ _ _ _ _ PA TY GC n SF x IX RX) as (j & lv & nv & L & _ & _ & CX & _). destruct (row_dst_canon x IX) as (D1 & _ & _ & D4 & _).
  exists j, x. split; auto. split; [split; auto|]. split; [rewrite <- CX; symmetry; apply mod_eq; auto; apply (row_canon _ TY x IX)|]. split; apply mod_eq; auto.
Qed.
Lemma step_write j x : is_step j x -> a_rd x <> 0 -> exists w, In w (t_reg T) /\ g_write w = 1 /\ g_clk w = 2 + Z.of_nat j /\ g_addr w = a_rd x.
Proof.
  intros (IX & RX & CX) N. destruct (core_in x IX RX) as (_ & _ & J). specialize (J N). destruct (row_dst_canon x IX) as (D1 & _ & _ & D4 & _).
  destruct (row_sent _ _ _ _ J D4 N) as (w & IW & U & KE). unfold rtuple in KE. apply key4 in KE as (K1 & K2 & K3 & _). destruct (reg_bits _ _ _ _ _ PA TY w IW) as (B1 & B2 & B3 & B4). apply op_of2 in K2 as [R W]; auto. destruct (reg_canons w IW) as (C1 & C2 & C3 & _).
  exists w. split; auto. split; auto. split; [rewrite <- CX; apply mod_eq; auto; apply (row_canon _ TY x IX)|apply mod_eq; auto].
Qed.
Lemma read_value xs k x a v : steps xs -> xs !! k = Some x -> In ([a_clk x; 1; a; v], 1) core_looking -> canon a -> canon v -> a <> 0 -> v = lastw (take k xs) a.
Proof.
  intros [LX HX] E J CA CV N. destruct (HX k x E) as (IX & RX & CX). destruct (row_sent _ _ _ _ J CA N) as (r & IR & U & KE). unfold rtuple in KE. apply key4 in KE as (K1 & K2 & K3 & K4).
  destruct (reg_bits _ _ _ _ _ PA TY r IR) as (B1 & B2 & B3 & B4). apply op_of in K2 as [R W]; auto. destruct (reg_canons r IR) as (C1 & C2 & C3 & _).
  apply mod_eq in K1; auto; [|apply (row_canon _ TY x IX)]. apply mod_eq in K3, K4; auto. rewrite CX in K1. subst a v.
  assert (KL : (k < length xs)%nat) by (apply lookup_lt_Some in E; exact E).
  destruct (C30_reads_last_write_partial (t_reg T) r reg_acc (gc_reg _ _ GC) IR R) as [(w & IW & WW & AW & TW & VW & MX)|(NW & i & II & GI & AI & VI)].
  - destruct (write_row w IW WW) as (j & y & JN & SY & CW & RY & DY). rewrite WW, W, CW, K1 in TW. assert (JK : (j < k)%nat) by lia.
    destruct (lookup_lt_is_Some_2 xs j) as (y' & EY); [lia|]. assert (y' = y) by (apply (step_same j); auto). subst y'.
    symmetry. rewrite <- VW, <- DY. apply (lastw_at (take k xs) (g_addr r) j y); [rewrite lookup_take by lia; exact EY|congruence|].
    intros j' z JJ EZ RZ. assert (L' : (j' < k)%nat) by (apply lookup_lt_Some in EZ; rewrite take_length in EZ; lia). rewrite lookup_take in EZ by lia.
    destruct (step_write j' z (HX _ _ EZ)) as (w' & IW' & WW' & CW' & AW'); [congruence|]. specialize (MX w' IW' WW' ltac:(congruence)). rewrite WW', WW, CW', CW, W, K1 in MX. lia.
  - transitivity 0; [|symmetry; apply lastw_none].
    + rewrite <- VI. destruct (reg_bits _ _ _ _ _ PA TY i II) as (D1 & D2 & D3 & D4). assert (UI : g_used i = 1 /\ g_read i = 0 /\ g_write i = 0) by (unfold g_used, bit in *; lia). destruct UI as (UI & RI & WI).
      destruct (reg_row_sent i II UI) as (t & f & J' & KE & ->). unfold rtuple in KE. rewrite RI, WI in KE. destruct (reg_canons i II) as (_ & C5 & _).
      apply core_of in J' as [(y & IY & RY & [-> | [-> | ->]])|(a & _ & -> & _)]; apply key4 in KE as (_ & Q2 & _ & Q4); try (exfalso; unfold feq in Q2; rewrite Z.mul_0_l in Q2; vm_compute in Q2; discriminate Q2).
      symmetry. apply mod_eq; auto. unfold canon, P; lia.
    + intros j z EZ RZ. assert (L' : (j < k)%nat) by (apply lookup_lt_Some in EZ; rewrite take_length in EZ; lia). rewrite lookup_take in EZ by lia.
      destruct (step_write j z (HX _ _ EZ)) as (w' & IW' & WW' & CW' & AW'); [congruence|]. specialize (NW w' IW' WW' ltac:(congruence)). rewrite WW', CW', W, K1 in NW. lia.
Qed.
(** x0 reads as 0 *)
Lemma read_zero x v : In x (a_rows T) -> In ([a_clk x; 1; 0; v], 1) core_looking -> canon v -> v = 0.
Proof.
  intros IX J CV. pose proof (mult_of_pos _ _ core_bits J) as M. pose proof (core_few [a_clk x; 1; 0; v]) as M'.
  pose proof (lh_register _ (pa_lookups _ _ _ _ _ PA) [a_clk x; 1; 0; v]) as CT. fold reg_looking in CT. rewrite core_mult in CT.
  destruct (ctl_nonzero_at _ _ _ CT) as (t & f & I & KE & NZ); [lia|]. rewrite !in_app_iff in I. destruct I as [I|[I|I]].
  - unfold reg_looked in I. apply in_map_iff in I as (r & E & I). inj2 E. apply key4 in KE as (_ & _ & K3 & _). destruct (reg_addr r I) as [A1 A2]. unfold feq in K3. rewrite Z.mod_small in K3 by lia. change (0 mod P) with 0 in K3. lia.
  - unfold zread_looked in I. apply in_map_iff in I as (r & E & I). inj2 E. apply key4 in KE as (_ & _ & _ & K4). symmetry. apply mod_eq; auto. unfold canon, P; lia.
  - unfold zwrite_looked in I. apply in_map_iff in I as (r & E & I). inj2 E. apply key4 in KE as (_ & K2 & _). unfold feq in K2. vm_compute in K2. discriminate K2.
Qed.
(** the register file before each step *)
Definition regs_at (xs : list arow) (k : nat) (a : Z) : Z := if decide (a = 0) then 0 else lastw (take k xs) a.
Theorem step_reads xs k x : steps xs -> xs !! k = Some x -> a_v1 x = regs_at xs k (a_rs1 x) /\ a_v2 x = regs_at xs k (a_rs2 x).
Proof.
  intros ST E. destruct (proj2 ST k x E) as (IX & RX & CX). destruct (core_in x IX RX) as (J1 & J2 & _). destruct (row_dst_canon x IX) as (_ & D1 & D2 & _ & D3 & D4). unfold regs_at. split; case_decide as Z0.
  - rewrite Z0 in J1. eapply read_zero; eauto.
  - eapply read_value; eauto.
  - rewrite Z0 in J2. eapply read_zero; eauto.
  - eapply read_value; eauto.
Qed.
End regs.
