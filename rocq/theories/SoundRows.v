(** C80: the running rows of the CPU, ADD and BLTU tables are the steps of the skeleton, one row per step. *)
From Verif Require Import SoundSpec StateProofs TableProofs CpuProofs CpuTrace WordProofs WordProps StateProps RunSpec.
Open Scope Z_scope.

Inductive arow := Rc (r : cpu) | Ra (r : add_row) | Rb (r : blt_row).
Definition a_run x := match x with Rc r => is_running r | Ra r => ad_running r | Rb r => bl_running r end.
Definition a_clk x := match x with Rc r => c_clk r | Ra r => ad_clk r | Rb r => bl_clk r end.
Definition a_pc x := match x with Rc r => c_pc r | Ra r => ad_pc r | Rb r => bl_pc r end.
Definition a_new x := match x with Rc r => c_new_pc r | Ra r => ad_pc r + 4 | Rb r => bl_imm r end.
Definition a_halt x := match x with Rc r => c_ecall r e_halt | _ => 0 end.
Definition a_rs1 x := match x with Rc r => i_rs1 (c_inst r) | Ra r => ad_rs1 r | Rb r => bl_rs1 r end.
Definition a_rs2 x := match x with Rc r => i_rs2 (c_inst r) | Ra r => ad_rs2 r | Rb r => bl_rs2 r end.
Definition a_v1 x := match x with Rc r => c_op1_value r | Ra r => ad_op1 r | Rb r => bl_op1 r end.
Definition a_v2 x := match x with Rc r => c_op2_value_raw r | Ra r => ad_op2 r | Rb r => bl_op2 r end.
Definition a_rd x := match x with Rc r => i_rd (c_inst r) | Ra r => ad_rd r | Rb r => 0 end.
Definition a_dst x := match x with Rc r => c_dst_value r | Ra r => ad_dst r | Rb r => 0 end.
Definition a_rows (T : tables) : list arow := map Rc (t_cpu T) ++ map Ra (t_add T) ++ map Rb (t_blt T).
Definition skel_tuple x := [a_clk x; a_pc x; a_new x; a_halt x].

Lemma skel_rows T : cpu_skeleton_looking (t_cpu T) ++ add_skeleton_looking (t_add T) ++ blt_skeleton_looking (t_blt T) = map (fun x => (skel_tuple x, a_run x)) (a_rows T).
Proof. unfold a_rows, cpu_skeleton_looking, add_skeleton_looking, blt_skeleton_looking. rewrite !map_app, !map_map. apply f_equal2; [|apply f_equal2]; apply map_ext; intros r; unfold skel_tuple; cbn [a_clk a_pc a_new a_halt a_run]; exact eq_refl. Qed.

Lemma mult_two e i j v w : Forall (fun x => bit (snd x)) e -> e !! i = Some (v, 1) -> e !! j = Some (w, 1) -> i <> j -> tuple_key v = tuple_key w -> 2 <= mult_of v e.
Proof.
  revert i j v w. assert (H : forall e, Forall (fun x => bit (snd x)) e -> forall (i j : nat) v w, (i < j)%nat -> e !! i = Some (v, 1) -> e !! j = Some (w, 1) -> tuple_key v = tuple_key w -> 2 <= mult_of v e).
  { clear. induction 1 as [|[t f] e B F IH]; intros i j v w L I J K; [destruct i; discriminate I|]. cbn in B. rewrite mult_of_cons. destruct i as [|i].
    - cbn in I. injection I as -> ->. rewrite decide_True by auto. destruct j as [|j]; [lia|]. cbn in J. rewrite (mult_of_key v w) by auto. pose proof (mult_of_pos w e F (lookup_In _ _ _ J)). lia.
    - destruct j as [|j]; [lia|]. cbn in I, J. specialize (IH i j v w ltac:(lia) I J K). case_decide; unfold bit in B; lia. }
  intros i j v w F I J N K. destruct (lt_dec i j) as [L|L]; [eapply (H e F i j); eauto|]. rewrite (mult_of_key v w) by auto. apply (H e F j i w v); auto; lia.
Qed.
(** the multiplicity of a tuple that occurs on one side *)
Lemma ctl_nonzero_at a b v : fzero (mult_of v a - mult_of v b) -> 0 < mult_of v a < P -> exists t m, In (t, m) b /\ tuple_key t = tuple_key v /\ ~ fzero m.
Proof.
  intros C L.
  assert (D : forall e : entries, (exists t m, In (t, m) e /\ tuple_key t = tuple_key v /\ ~ fzero m) \/ (forall t m, In (t, m) e -> tuple_key t = tuple_key v -> fzero m)).
  { clear. induction e as [|[t f] e IH]; [right; intros ? ? []|]. destruct IH as [(t' & m & I & K & N)|H]; [left; exists t', m; cbn; auto|].
    destruct (decide (tuple_key t = tuple_key v /\ f mod P <> 0)) as [[K N]|N]; [left; exists t, f; cbn; auto|right].
    intros t' m [E|I] K; [injection E as <- <-|eauto]. unfold fzero. destruct (decide (f mod P = 0)); auto. exfalso; auto. }
  destruct (D b) as [H|H]; auto. exfalso. pose proof (mult_of_absent v b H) as Z0. pose proof (fzero_add _ _ C Z0) as E. replace (_ + _) with (mult_of v a) in E by lia. apply fzero_small in E; lia.
Qed.
Lemma ctl_nonzero a b v : ctl_ok a b -> 0 < mult_of v a < P -> exists t m, In (t, m) b /\ tuple_key t = tuple_key v /\ ~ fzero m.
Proof. intros C. apply ctl_nonzero_at, C. Qed.
Lemma ctl_sym a b : ctl_ok a b -> ctl_ok b a.
Proof. intros C v. specialize (C v). unfold fzero in *. replace (_ - _) with (- (mult_of v a - mult_of v b)) by lia. apply Z.mod_opp_l_z; [unfold P; lia|exact C]. Qed.

Lemma map_at {A B} (f : A -> B) l k : map f l !! k = f <$> (l !! k).
Proof. exact (list_lookup_fmap f l k). Qed.
Lemma mult_one e v : Forall (fun x => bit (snd x)) e ->
  (forall i j t t', e !! i = Some (t, 1) -> e !! j = Some (t', 1) -> tuple_key t = tuple_key v -> tuple_key t' = tuple_key v -> i = j) -> mult_of v e <= 1.
Proof.
  induction 1 as [|[t f] e B F IH]; intros U; [cbn; lia|]. cbn in B. rewrite mult_of_cons. assert (U' : mult_of v e <= 1).
  { apply IH. intros i j t1 t2 I J K1 K2. specialize (U (S i) (S j) t1 t2 I J K1 K2). lia. }
  case_decide as D; [|lia]. destruct B as [->| ->]; [lia|]. enough (mult_of v e = 0) by lia. clear IH U'.
  assert (N : forall t', In (t', 1) e -> tuple_key t' = tuple_key v -> False).
  { intros t' I K. apply In_lookup in I as (j & J). specialize (U 0%nat (S j) t t' eq_refl J D K). discriminate U. }
  clear U D. induction F as [|[t' f'] e B' F IH]; [reflexivity|]. rewrite mult_of_cons, IH by (intros t'' I; apply (N t''); right; auto). case_decide as D; [|lia]. cbn in B'. destruct B' as [->| ->]; [lia|]. exfalso. apply (N t'); cbn; auto.
Qed.

Section rows.
Context (K : p2consts) (p : program) (events casts : list Z) (T : tables).
Context (PA : proof_accepted K p events casts T) (TY : tables_typed T) (GC : gaps_closed p T) (FR : no_devices T) (GP : good_program p).

Lemma skel_acc : skel_accepted (entry_point p) (t_skel T).
Proof. constructor; [apply (ch_skel _ _ _ (pa_constraints _ _ _ _ _ PA))|apply (ty_skel _ TY)..]. Qed.

(** range checks *)
Lemma mem_bits r : In r (t_mem T) -> bit (m_executed r) /\ bit (m_init r).
Proof.
  intros I. apply In_lookup in I as (k & E). destruct (succ_mod _ _ _ E) as (r' & E'). pose proof (ts_always _ _ (ch_mem _ _ _ (pa_constraints _ _ _ _ _ PA)) _ _ _ E E') as A.
  destruct (ty_mem _ TY) as [C _]. rewrite List.Forall_forall in C. destruct (C r (lookup_In _ _ _ E)) as (C1 & C2 & C3 & C4 & C5 & C6 & C7).
  cbn in A. unfold all_zero in A. rewrite !List.Forall_cons_iff in A. destruct A as (_ & A2 & A3 & A4 & A5 & _).
  apply binary_canon in A2, A3, A4; auto. split; auto. apply binary_canon; [|exact A5]. unfold canon, m_executed, P in *. lia.
Qed.
Lemma windows_fst {R} (t : list R) x y : In (x, y) (windows t) -> In x t /\ In y t.
Proof.
  unfold windows. intros I. split; [exact (in_combine_l _ _ _ _ I)|]. apply in_combine_r in I. apply in_app_or in I as [I|I]; destruct t; cbn in *; auto. destruct I as [->|[]]; auto.
Qed.
Lemma windows_len {R} (t : list R) : length (windows t) = length t.
Proof. unfold windows. rewrite combine_length, app_length, take_length. destruct t; cbn [length tail]; lia. Qed.
Lemma reg_bits r : In r (t_reg T) -> bit (g_init r) /\ bit (g_read r) /\ bit (g_write r) /\ bit (g_used r).
Proof.
  intros I. apply In_lookup in I as (k & E). destruct (succ_mod _ _ _ E) as (r' & E'). pose proof (ts_always _ _ (ch_reg _ _ _ (pa_constraints _ _ _ _ _ PA)) _ _ _ E E') as A.
  destruct (ty_reg _ TY) as [C _]. rewrite List.Forall_forall in C. destruct (C r (lookup_In _ _ _ E)) as (C1 & C2 & C3 & C4 & C5 & C6).
  cbn in A. unfold all_zero in A. rewrite !List.Forall_cons_iff in A. destruct A as (A1 & A2 & A3 & A4 & _).
  apply binary_canon in A1, A2, A3; auto. repeat split; auto. apply binary_canon; [|exact A4]. unfold canon, g_used, P in *. lia.
Qed.

Definition rc_all := mem_rc_looking (t_mem T) ++ cpu_rc_looking (t_cpu T) ++ add_rc_looking (t_add T) ++ reg_rc_looking (t_reg T).
Lemma cpu_col r x : In r (t_cpu T) -> In x (cpu_columns r) -> canon x.
Proof. intros I. destruct (ty_cpu _ TY) as [C _]. rewrite List.Forall_forall in C. specialize (C r I). rewrite List.Forall_forall in C. apply C. Qed.
Lemma cpu_op_canon r o : In r (t_cpu T) -> canon (c_op r o).
Proof. intros I. apply (cpu_col r); auto. unfold cpu_columns. apply in_or_app. right. apply in_or_app. left. apply in_map. destruct o; cbn; auto 30. Qed.
Lemma rc_nonneg : Forall (fun x => 0 <= snd x) rc_all.
Proof.
  unfold rc_all. rewrite !List.Forall_app. repeat split; apply List.Forall_forall; intros [v f] I; cbn.
  - unfold mem_rc_looking in I. apply in_app_or in I as [I|I]; apply in_map_iff in I as ([lv nv] & E & I); injection E as <- <-; apply windows_fst in I as [I1 I2].
    + destruct (mem_bits _ I1) as [B _]. unfold bit in B. lia.
    + destruct (mem_bits _ I2) as [_ B]. unfold bit in B. lia.
  - unfold cpu_rc_looking in I. apply in_flat_map in I as (r & Ir & I). apply in_map_iff in I as ([v' f'] & E & I). injection E as <- <-.
    assert (O : forall o, 0 <= c_op r o) by (intros o; pose proof (cpu_op_canon r o Ir) as C; unfold canon in C; lia).
    assert (S1 : canon (i_op1_signed (c_inst r)) /\ canon (i_op2_signed (c_inst r))) by (split; apply (cpu_col r); auto; unfold cpu_columns; apply in_or_app; right; apply in_or_app; right; apply in_or_app; left; cbn; auto).
    unfold canon in S1. pose proof (O o_div). pose proof (O o_rem). pose proof (O o_srl). pose proof (O o_sra). pose proof (O o_mul). pose proof (O o_mulh). pose proof (O o_sll). pose proof (O o_add). pose proof (O o_sub). pose proof (O o_jalr). pose proof (O o_bge). pose proof (O o_blt). pose proof (O o_lb). pose proof (O o_lh).
    unfold rangecheck_looking in I. cbn [In] in I. clear O. repeat (destruct I as [I|I]; [apply (f_equal snd) in I; cbn [snd] in I; lia|]). destruct I.
  - unfold add_rc_looking in I. apply in_map_iff in I as (r & E & I). injection E as <- <-. destruct (gc_running _ _ GC) as [B _]. rewrite List.Forall_forall in B. specialize (B r I). unfold bit in B. lia.
  - unfold reg_rc_looking in I. apply in_map_iff in I as ([lv nv] & E & I). injection E as <- <-. apply windows_fst in I as [_ I]. destruct (reg_bits _ I) as (_ & B & C & _). unfold bit, g_rw in *. lia.
Qed.
Lemma rc_u32 v f : In ([v], f) rc_all -> 0 < f -> u32 (v mod P).
Proof.
  intros I F. destruct (gc_rc _ _ GC) as [G1 G2].
  apply (rc_sound (t_u8 T) (t_rc T) (mem_u8_looking (t_mem T)) rc_all v) with (f := f); auto.
  - apply (ch_u8 _ _ _ (pa_constraints _ _ _ _ _ PA)).
  - apply (ty_u8 _ TY).
  - apply (ty_u8 _ TY).
  - apply (ty_rc _ TY).
  - apply List.Forall_forall. intros [w m] J. unfold mem_u8_looking in J. apply in_map_iff in J as (r & E & J). injection E as <- <-. cbn. destruct (mem_bits _ J) as [B _]. unfold bit in B. lia.
  - apply (lh_u8 _ (pa_lookups _ _ _ _ _ PA)).
  - apply (lh_rangecheck _ (pa_lookups _ _ _ _ _ PA)).
  - apply rc_nonneg.
Qed.
Lemma rc_u32' v f : In ([v], f) rc_all -> ~ fzero f -> u32 (v mod P).
Proof.
  intros I F. apply rc_u32 with (f := f); auto. pose proof rc_nonneg as N. rewrite List.Forall_forall in N. specialize (N _ I). cbn in N. destruct (Z.eq_dec f 0) as [->|]; [|lia]. exfalso. apply F, fzero_0.
Qed.
Lemma cpu_acc : cpu_accepted (t_cpu T).
Proof.
  constructor.
  - apply (ch_cpu _ _ _ (pa_constraints _ _ _ _ _ PA)).
  - apply (ty_cpu _ TY).
  - apply (ty_cpu _ TY).
  - apply List.Forall_forall. intros r I. apply List.Forall_forall. intros [v f] J F. apply rc_u32' with (f := f); auto.
    unfold rc_all. apply in_or_app. right. apply in_or_app. left. unfold cpu_rc_looking. apply in_flat_map. exists r. split; auto. apply (in_map (fun '(v, f) => ([v], f)) _ (v, f)), J.
  - exists (t_xor T). split; [apply (ch_xor _ _ _ (pa_constraints _ _ _ _ _ PA))|]. split; [apply (ty_xor _ TY)|apply (lh_xor _ (pa_lookups _ _ _ _ _ PA))].
  - exists (t_shift T). split; [apply (ch_shift _ _ _ (pa_constraints _ _ _ _ _ PA))|]. split; [apply (ty_shift _ TY)|]. split; [apply (ty_shift _ TY)|apply (lh_shift _ (pa_lookups _ _ _ _ _ PA))].
Qed.

(** one running row per step *)
Lemma run_bits : Forall (fun x => bit (a_run x)) (a_rows T).
Proof.
  unfold a_rows. destruct (gc_running _ _ GC) as [A B]. rewrite !List.Forall_app. repeat split; apply List.Forall_forall; intros x I; apply in_map_iff in I as (r & <- & I); cbn [a_run].
  - apply (op_filter_bit (t_cpu T) r all_osel); [exact cpu_acc|auto|]. exact all_osel_nodup.
  - rewrite List.Forall_forall in A. apply A, I.
  - rewrite List.Forall_forall in B. apply B, I.
Qed.
Lemma rows_few : Z.of_nat (length (a_rows T)) <= 3 * 2 ^ 32.
Proof. unfold a_rows. rewrite !app_length, !map_length. destruct (ty_cpu _ TY) as [_ A], (ty_add _ TY) as [_ B], (ty_blt _ TY) as [_ C]. unfold max_rows in *. lia. Qed.
Lemma row_canon x : In x (a_rows T) -> canon (a_clk x) /\ canon (a_pc x).
Proof.
  unfold a_rows. rewrite !in_app_iff, !in_map_iff. intros [(r & <- & I)|[(r & <- & I)|(r & <- & I)]]; cbn.
  - split; apply (cpu_col r); auto; unfold cpu_columns; cbn; auto.
  - destruct (ty_add _ TY) as [C _]. rewrite List.Forall_forall in C. specialize (C r I). rewrite !List.Forall_cons_iff in C. intuition.
  - destruct (ty_blt _ TY) as [C _]. rewrite List.Forall_forall in C. specialize (C r I). rewrite !List.Forall_cons_iff in C. intuition.
Qed.
Definition skel_looking := map (fun x => (skel_tuple x, a_run x)) (a_rows T).
Lemma skel_ctl : ctl_ok skel_looking (skel_looked (t_skel T)).
Proof. unfold skel_looking. rewrite <- skel_rows. apply (lh_skeleton _ (pa_lookups _ _ _ _ _ PA)). Qed.
Lemma skel_bits : Forall (fun e => bit (snd e)) skel_looking.
Proof. unfold skel_looking. apply List.Forall_forall. intros e I. apply in_map_iff in I as (x & <- & I). pose proof run_bits as B. rewrite List.Forall_forall in B. apply B, I. Qed.
Lemma skel_few v : 0 <= mult_of v skel_looking < P.
Proof. pose proof (mult_of_bits v _ skel_bits) as B. pose proof rows_few as F. unfold skel_looking in *. rewrite map_length in B. unfold P. lia. Qed.

Definition skel_facts (n : nat) : Prop := (0 < n < length (t_skel T))%nat /\
  (forall k r, t_skel T !! k = Some r -> (k < n)%nat -> sk_running r = 1 /\ sk_clk r = 2 + Z.of_nat k) /\
  (forall k r, t_skel T !! k = Some r -> (n <= k)%nat -> sk_running r = 0 /\ sk_clk r = 2 + Z.of_nat n) /\
  exists r, t_skel T !! 0%nat = Some r /\ sk_pc r = entry_point p.
Lemma skel_n : exists n, skel_facts n.
Proof.
  destruct (C29_skeleton_sound _ _ skel_acc) as (n & A & B & C & r & R & E). exists n. split; auto. split; auto. split; auto. exists r. split; auto.
  destruct (ty_skel _ TY) as [F _]. rewrite List.Forall_forall in F. destruct (F r (lookup_In _ _ _ R)) as (_ & D & _). apply canon_mod; auto. pose proof (gp_entry _ GP) as G. unfold u32, canon, P in *. lia.
Qed.
Context (n : nat) (SF : skel_facts n).
Lemma skel_looked_at k lv nv : t_skel T !! k = Some lv -> t_skel T !! (S k mod length (t_skel T))%nat = Some nv ->
  skel_looked (t_skel T) !! k = Some ([sk_clk lv; sk_pc lv; sk_pc nv; 1 - sk_running nv], sk_running lv).
Proof. intros A B. unfold skel_looked. etransitivity; [apply (list_lookup_fmap (fun x : skel * skel => (let (lv, nv) := x in ([sk_clk lv; sk_pc lv; sk_pc nv; 1 - sk_running nv], sk_running lv))))|]. rewrite (windows_lookup _ _ _ _ A B). reflexivity. Qed.
Lemma skel_running_bit k r : t_skel T !! k = Some r -> bit (sk_running r).
Proof. intros R. destruct SF as (_ & A & B & _). destruct (lt_dec k n) as [L|L]; [right; apply (A k)|left; apply (B k)]; auto; lia. Qed.
Lemma skel_looked_inv k t f : skel_looked (t_skel T) !! k = Some (t, f) -> exists lv nv, t_skel T !! k = Some lv /\ t_skel T !! (S k mod length (t_skel T))%nat = Some nv /\
  t = [sk_clk lv; sk_pc lv; sk_pc nv; 1 - sk_running nv] /\ f = sk_running lv.
Proof.
  intros E. destruct (t_skel T !! k) as [lv|] eqn:A.
  - destruct (succ_mod _ _ _ A) as (nv & B). exists lv, nv. rewrite (skel_looked_at _ _ _ A B) in E. injection E as <- <-. auto.
  - apply lookup_ge_None in A. assert (length (skel_looked (t_skel T)) = length (t_skel T)) as L by (unfold skel_looked; rewrite map_length; apply windows_len). apply lookup_lt_Some in E. lia.
Qed.
Lemma skel_looked_bits : Forall (fun e => bit (snd e)) (skel_looked (t_skel T)).
Proof. apply List.Forall_forall. intros [t f] I. apply In_lookup in I as (k & E). apply skel_looked_inv in E as (lv & nv & A & _ & _ & ->). apply (skel_running_bit k), A. Qed.
Lemma skel_len : Z.of_nat (length (t_skel T)) <= 2 ^ 32.
Proof. apply (ty_skel _ TY). Qed.
Lemma skel_canon k r : t_skel T !! k = Some r -> canon (sk_clk r) /\ canon (sk_pc r) /\ canon (sk_running r).
Proof. intros R. destruct (ty_skel _ TY) as [F _]. rewrite List.Forall_forall in F. apply F, (lookup_In _ _ _ R). Qed.
Lemma key4 a b c d a' b' c' d' : tuple_key [a; b; c; d] = tuple_key [a'; b'; c'; d'] -> feq a a' /\ feq b b' /\ feq c c' /\ feq d d'.
Proof. unfold tuple_key, feq. cbn [map]. intros E. injection E as E1 E2 E3 E4. auto. Qed.
Lemma row_of_step k lv nv : t_skel T !! k = Some lv -> t_skel T !! S k = Some nv -> (k < n)%nat ->
  exists x, In x (a_rows T) /\ a_run x = 1 /\ a_clk x = 2 + Z.of_nat k /\ a_pc x = sk_pc lv /\ feq (a_new x) (sk_pc nv) /\ feq (a_halt x) (1 - sk_running nv).
Proof.
  intros A B L. pose proof skel_len as SL. destruct SF as (_ & R & _). destruct (R k lv A L) as [R1 R2].
  assert (B' : t_skel T !! (S k mod length (t_skel T))%nat = Some nv) by (rewrite (succ_lt _ _ _ B); exact B).
  pose proof (skel_looked_at _ _ _ A B') as E. rewrite R1 in E. apply lookup_In in E.
  pose proof (mult_of_pos _ _ skel_looked_bits E) as M. pose proof (mult_of_bits [sk_clk lv; sk_pc lv; sk_pc nv; 1 - sk_running nv] _ skel_looked_bits) as M'.
  assert (length (skel_looked (t_skel T)) = length (t_skel T)) as LL by (unfold skel_looked; rewrite map_length; apply windows_len).
  destruct (ctl_nonzero _ _ [sk_clk lv; sk_pc lv; sk_pc nv; 1 - sk_running nv] (ctl_sym _ _ skel_ctl)) as (t & m & I & KE & NZ); [unfold P; lia|].
  unfold skel_looking in I. apply in_map_iff in I as (x & EX & I). injection EX as <- <-. exists x. split; auto.
  pose proof run_bits as RB. rewrite List.Forall_forall in RB. split; [apply bit_nz; auto|]. unfold skel_tuple in KE. apply key4 in KE as (K1 & K2 & K3 & K4). destruct (row_canon x I) as [C1 C2]. destruct (skel_canon _ _ A) as (C3 & C4 & _).
  split; [rewrite <- R2; apply canon_mod; auto|]. split; [apply canon_mod; auto|]. auto.
Qed.
Lemma row_step x : In x (a_rows T) -> a_run x = 1 -> exists k lv nv, (k < n)%nat /\ t_skel T !! k = Some lv /\ t_skel T !! S k = Some nv /\
  a_clk x = 2 + Z.of_nat k /\ tuple_key (skel_tuple x) = tuple_key [sk_clk lv; sk_pc lv; sk_pc nv; 1 - sk_running nv].
Proof.
  intros I R. assert (J : In (skel_tuple x, 1) skel_looking) by (unfold skel_looking; rewrite <- R; apply (in_map (fun x => (skel_tuple x, a_run x))), I).
  pose proof (mult_of_pos _ _ skel_bits J) as M. pose proof (skel_few (skel_tuple x)) as M'.
  destruct (ctl_nonzero _ _ (skel_tuple x) skel_ctl) as (t & m & IT & KE & NZ); [lia|]. apply In_lookup in IT as (k & E). apply skel_looked_inv in E as (lv & nv & A & B & -> & ->).
  destruct SF as ((N0 & N1) & F1 & F2 & _). assert (L : (k < n)%nat). { destruct (lt_dec k n) as [|L]; auto. exfalso. apply NZ. destruct (F2 k lv A ltac:(lia)) as [-> _]. apply fzero_0. }
  exists k, lv, nv. assert (B' : t_skel T !! S k = Some nv). { rewrite Nat.mod_small in B by lia. exact B. }
  split; auto. split; auto. split; auto. split; [|auto]. destruct (F1 k lv A L) as [_ C]. rewrite <- C. unfold skel_tuple in KE. apply key4 in KE as (K1 & _). apply canon_mod; [apply (row_canon x I)|apply (skel_canon _ _ A)|symmetry; exact K1].
Qed.
Lemma row_unique i j x y : a_rows T !! i = Some x -> a_rows T !! j = Some y -> a_run x = 1 -> a_run y = 1 -> a_clk x = a_clk y -> i = j.
Proof.
  intros I J RX RY C. destruct (row_step x (lookup_In _ _ _ I) RX) as (k & lv & nv & L & A & B & CX & KX). destruct (row_step y (lookup_In _ _ _ J) RY) as (k' & lv' & nv' & L' & A' & B' & CY & KY).
  assert (k' = k) by lia. subst k'. rewrite A in A'. injection A' as <-. rewrite B in B'. injection B' as <-.
  destruct (Nat.eq_dec i j) as [|N]; auto. exfalso.
  assert (IX : skel_looking !! i = Some (skel_tuple x, 1)) by (unfold skel_looking; etransitivity; [apply (list_lookup_fmap (fun x => (skel_tuple x, a_run x)))|]; rewrite I, <- RX; reflexivity).
  assert (IY : skel_looking !! j = Some (skel_tuple y, 1)) by (unfold skel_looking; etransitivity; [apply (list_lookup_fmap (fun x => (skel_tuple x, a_run x)))|]; rewrite J, <- RY; reflexivity).
  pose proof (mult_two _ _ _ _ _ skel_bits IX IY N (eq_trans KX (eq_sym KY))) as M. pose proof (skel_few (skel_tuple x)) as M'.
  assert (O : mult_of (skel_tuple x) (skel_looked (t_skel T)) <= 1).
  { apply mult_one; [exact skel_looked_bits|]. intros i1 i2 t1 t2 E1 E2 K1 K2. apply skel_looked_inv in E1 as (l1 & n1 & A1 & _ & -> & R1). apply skel_looked_inv in E2 as (l2 & n2 & A2 & _ & -> & R2).
    rewrite KX in K1, K2. apply key4 in K1 as (K1 & _). apply key4 in K2 as (K2 & _). destruct SF as (_ & F1 & F2 & _).
    assert (Q1 : (i1 < n)%nat) by (destruct (lt_dec i1 n) as [|Q]; auto; destruct (F2 i1 l1 A1 ltac:(lia)); lia).
    assert (Q2 : (i2 < n)%nat) by (destruct (lt_dec i2 n) as [|Q]; auto; destruct (F2 i2 l2 A2 ltac:(lia)); lia).
    destruct (F1 i1 l1 A1 Q1) as [_ S1], (F1 i2 l2 A2 Q2) as [_ S2]. pose proof (skel_canon _ _ A1) as (D1 & _). pose proof (skel_canon _ _ A2) as (D2 & _). assert (sk_clk l1 = sk_clk l2) by (apply canon_mod; auto; rewrite K1, K2; reflexivity). lia. }
  pose proof (mult_of_bits (skel_tuple x) _ skel_looked_bits) as O'. pose proof (skel_ctl (skel_tuple x)) as Z0. apply fzero_small in Z0; [lia|]. unfold P in *. lia.
Qed.
End rows.
