(** From accepted CPU tables to acceptable CPU rows, and an executable acceptance check for short tables. *)
From Verif Require Import CircuitSpec TableProofs CpuProofs CpuWitness.
Import RvSpec.
Open Scope Z_scope.
Ltac Zify.zify_post_hook ::= Z.div_mod_to_equations.

Lemma filter_bit (r : cpu) (l : list osel) : Forall canon (cpu_columns r) -> all_zero (cpu_always r) -> List.NoDup l ->
  bit (sumZ (map (c_op r) l)).
Proof.
  intros C Z0 ND. destruct (one_hot r C Z0) as [B O].
  destruct (decide (Exists (fun x => c_op r x = 1) l)) as [E|E].
  - right. induction l as [|x l IH]; [inversion E|]. cbn [map]. rewrite sumZ_cons. apply List.NoDup_cons_iff in ND as [Nx ND].
    destruct (B x) as [X|X]; rewrite X.
    + inversion E as [? ? H|? ? H]; subst; [lia|]. rewrite IH; auto.
    + assert (Z : forall l', (forall y, In y l' -> c_op r y = 0) -> sumZ (map (c_op r) l') = 0).
      { clear. induction l' as [|y l' IH]; intros H; [reflexivity|]. cbn [map]. rewrite sumZ_cons, H, IH; auto; [|cbn; auto]. intros; apply H; cbn; auto. }
      rewrite Z; [lia|]. intros y I. destruct (B y) as [|Y]; auto. exfalso. apply Nx. rewrite (O x y); auto.
  - left. induction l as [|x l IH]; [reflexivity|]. cbn [map]. rewrite sumZ_cons. apply List.NoDup_cons_iff in ND as [Nx ND].
    destruct (B x) as [X|X]; [|exfalso; apply E; left; auto]. rewrite X, IH; auto.
Qed.
Lemma xor_filter r : ops_that_use_xor r = sumZ (map (c_op r) [o_xor; o_or; o_and; o_srl; o_sll; o_sra]).
Proof. reflexivity. Qed.
Lemma shift_filter r : ops_that_shift r = sumZ (map (c_op r) [o_sll; o_srl; o_sra]).
Proof. reflexivity. Qed.
Ltac nodup := repeat constructor; cbn; intros H; repeat destruct H as [H|H]; try discriminate; try contradiction.
Lemma In_lookup {A} (t : list A) r : In r t -> exists k, t !! k = Some r.
Proof. intros I. apply elem_of_list_lookup, elem_of_list_In, I. Qed.
Lemma lookup_In {A} (t : list A) k r : t !! k = Some r -> In r t.
Proof. intros E. apply elem_of_list_In, elem_of_list_lookup. eauto. Qed.

Lemma accepted_always t r : cpu_accepted t -> In r t -> Forall canon (cpu_columns r) /\ all_zero (cpu_always r).
Proof.
  intros A I. pose proof (ac_canon _ A) as C. rewrite Forall_forall in C. split; [apply C; auto|].
  destruct (In_lookup _ _ I) as [k E]. destruct (lookup_lt_is_Some_2 t (Datatypes.S k mod length t)) as [r' E'].
  { apply Nat.mod_upper_bound. apply lookup_lt_Some in E. lia. }
  exact (ts_always _ _ (ac_sat _ A) k r r' E E').
Qed.
Lemma accepted_inner t r : cpu_accepted t -> inner t r -> all_zero (cpu_transition r).
Proof. intros A (k & r' & E & E'). exact (ts_transition _ _ (ac_sat _ A) k r r' E E'). Qed.
Lemma bit_nz x : bit x -> ~ fzero x -> x = 1.
Proof. intros [->| ->] N; auto. exfalso. apply N. apply fzero_0. Qed.
Lemma canon_mod x y : canon x -> canon y -> x mod P = y mod P -> x = y.
Proof. unfold canon. intros X Y E. rewrite !Z.mod_small in E by lia. auto. Qed.

Theorem accepted_row t r : cpu_accepted t -> In r t -> cpu_row_ok r.
Proof.
  intros A I. destruct (accepted_always _ _ A I) as [C Z0].
  assert (L : Z.of_nat (length t) < P) by (pose proof (ac_len _ A); unfold max_rows, P in *; lia).
  pose proof (ac_rc _ A) as RC. rewrite Forall_forall in RC. constructor; auto.
  - intros N. destruct (ac_xor _ A) as (xt & S & T & CT).
    assert (B : Forall (fun x => bit (snd x)) (xor_looking t)).
    { apply Forall_forall. intros (v & f) J. unfold xor_looking in J. apply in_map_iff in J as (q & E & J). injection E as <- <-. cbn [snd].
      destruct (accepted_always _ _ A J) as [Cq Zq]. rewrite xor_filter. apply filter_bit; auto. nodup. }
    assert (F1 : ops_that_use_xor r = 1).
    { apply bit_nz; auto. rewrite xor_filter. apply filter_bit; auto. nodup. }
    destruct (ctl_member _ _ [c_xor_a r; c_xor_b r; c_xor_out r] CT B) as (tt & m & It & K & _).
    + unfold xor_looking. rewrite map_length. exact L.
    + unfold xor_looking. rewrite <- F1. apply (in_map (fun r => ([c_xor_a r; c_xor_b r; c_xor_out r], ops_that_use_xor r))); auto.
    + unfold xor_looked in It. apply in_map_iff in It as (x & E & Ix). injection E as <- <-. exists x.
      rewrite Forall_forall in T. split; [auto|]. pose proof (T x Ix) as [_ Cx]. rewrite Forall_forall in Cx.
      destruct (In_lookup _ _ Ix) as [k E]. destruct (lookup_lt_is_Some_2 xt (Datatypes.S k mod length xt)) as [x' E'].
      { apply Nat.mod_upper_bound. apply lookup_lt_Some in E. lia. }
      split; [exact (ts_always _ _ S k x x' E E')|]. unfold tuple_key in K. cbn [map] in K. injection K as K1 K2 K3.
      rewrite Forall_forall in C.
      split; [|split]; apply canon_mod; auto; try (apply Cx; cbn; tauto); apply C; in_cols.
  - intros N. destruct (ac_shift _ A) as (st & S & T & M & CT).
    assert (B : Forall (fun x => bit (snd x)) (shift_looking t)).
    { apply Forall_forall. intros (v & f) J. unfold shift_looking in J. apply in_map_iff in J as (q & E & J). injection E as <- <-. cbn [snd].
      destruct (accepted_always _ _ A J) as [Cq Zq]. rewrite shift_filter. apply filter_bit; auto. nodup. }
    assert (F1 : ops_that_shift r = 1).
    { apply bit_nz; auto. rewrite shift_filter. apply filter_bit; auto. nodup. }
    destruct (ctl_member _ _ [c_bs_amount r; c_bs_multiplier r] CT B) as (tt & m & It & K & _).
    + unfold shift_looking. rewrite map_length. exact L.
    + unfold shift_looking. rewrite <- F1. apply (in_map (fun r => ([c_bs_amount r; c_bs_multiplier r], ops_that_shift r))); auto.
    + unfold shift_looked in It. apply in_map_iff in It as (x & E & Ix). injection E as <- <-. exists st, x.
      rewrite Forall_forall in T. pose proof (T x Ix) as [Cx1 Cx2]. do 3 (split; [auto; try (apply Forall_forall; auto)|]). split; auto.
      unfold tuple_key in K. cbn [map] in K. injection K as K1 K2. rewrite Forall_forall in C.
      split; apply canon_mod; auto; apply C; in_cols.
Qed.

(** ** Executable acceptance *)
Definition pairs (t : list cpu) : list cpu := removelast t.
Definition check_table (t : list cpu) : bool :=
  negb (length t =? 0)%nat && (Z.of_nat (length t) <=? 2 ^ 32)
  && forallb check_row t && forallb (fun r => forallb fzb (cpu_transition r)) (removelast t)
  && ctl_check (xor_looking t) (xor_looked (generate_xor_trace t))
  && ctl_check (shift_looking t) (shift_looked (generate_shift_trace t)).
Lemma xor_default_ok : xor_row_typed xor_default /\ all_zero (xor_constraints xor_default).
Proof.
  split; [split; [auto|]|].
  - apply Forall_forall. intros x I. assert (E : x = 0). { cbn in I. repeat (destruct I as [I|I]; [auto|]). destruct I. } rewrite E. unfold canon, P. lia.
  - apply Forall_forall. intros x I. assert (E : In x (map (fun _ => 0) (xor_constraints xor_default))) by exact I.
    apply in_map_iff in E as (? & <- & _). apply fzero_0.
Qed.
Lemma removelast_lookup {A} (t : list A) k r r' : t !! k = Some r -> t !! Datatypes.S k = Some r' -> In r (removelast t).
Proof.
  revert k. induction t as [|x t IH]; intros k E E'; [discriminate|]. destruct t as [|y t]; [destruct k; discriminate E'|].
  destruct k as [|k]; cbn in E, E'; [injection E as ->; left; reflexivity|]. right. apply (IH k E E').
Qed.
Lemma check_table_ok t : check_table t = true -> cpu_accepted t.
Proof.
  unfold check_table. rewrite !andb_true_iff. intros (((((N & L) & R) & T) & X) & S). rewrite forallb_forall in R, T.
  apply Z.leb_le in L. apply ctl_check_ok in X, S. apply negb_true_iff, Nat.eqb_neq in N.
  assert (RO : forall r, In r t -> cpu_row_ok r) by (intros r I; apply check_row_ok; auto).
  constructor.
  - constructor.
    + intros ->. auto.
    + intros; constructor.
    + intros k r r' E _. apply (ro_always r), RO. eapply lookup_In; eauto.
    + intros k r r' E E'. pose proof (T r (removelast_lookup _ _ _ _ E E')) as Z. rewrite forallb_forall in Z.
      apply Forall_forall. intros x I. apply fzb_ok, Z, I.
    + intros; constructor.
  - apply Forall_forall. intros r I. apply (ro_canon r), RO, I.
  - exact L.
  - apply Forall_forall. intros r I. apply (ro_rc r), RO, I.
  - exists (generate_xor_trace t). split; [|split; [|exact X]].
    + assert (G : forall x, In x (generate_xor_trace t) -> xor_row_typed x /\ all_zero (xor_constraints x)).
      { intros x I. unfold generate_xor_trace, pad_with in I. apply in_app_iff in I as [I|I].
        - apply in_map_iff in I as (r & <- & I). apply filter_In in I as [I F]. apply Z.eqb_eq in F.
          pose proof (RO r I) as O. destruct (ro_xor r O) as (y & Ty & Zy & Ea & Eb & Eo); [intros Z; unfold fzero in Z; lia|].
          destruct (xor_sound y Ty Zy) as (Ua & Ub & _ & E). rewrite <- Ea, <- Eb, <- Eo, E. apply xor_complete; auto.
        - apply repeat_spec in I as ->. exact xor_default_ok. }
      constructor; try (intros; constructor).
      * unfold generate_xor_trace, pad_with. intros E. apply (f_equal (@length _)) in E. rewrite app_length, repeat_length in E. cbn [length] in E.
        revert E. generalize (length (map (fun r => gen_xor_row (c_xor_a r) (c_xor_b r) (c_xor_out r)) (List.filter (fun r => ops_that_use_xor r mod P =? 1) t))).
        intros n E. assert (8 <= padded_len n)%nat; [|lia].
        unfold padded_len. lia.
      * intros k r r' E _. apply G. eapply lookup_In; eauto.
    + apply Forall_forall. intros x I. unfold generate_xor_trace, pad_with in I. apply in_app_iff in I as [I|I].
      * apply in_map_iff in I as (r & <- & I). apply filter_In in I as [I F]. apply Z.eqb_eq in F.
        pose proof (RO r I) as O. destruct (ro_xor r O) as (y & Ty & Zy & Ea & Eb & Eo); [intros Z; unfold fzero in Z; lia|].
        destruct (xor_sound y Ty Zy) as (Ua & Ub & _ & E). rewrite <- Ea, <- Eb, <- Eo, E. apply xor_complete; auto.
      * apply repeat_spec in I as ->. apply xor_default_ok.
  - exists (generate_shift_trace t). split; [apply shift_complete|]. split; [|split; [|exact S]].
    + unfold generate_shift_trace. apply Forall_forall. intros s I. apply in_map_iff in I as (k & <- & I). apply in_seq in I.
      unfold shift_canon, canon. cbn [s_amount s_multiplier].
      assert (2 ^ Z.of_nat k <= 2 ^ 31) by (apply Z.pow_le_mono_r; lia). assert (0 < 2 ^ Z.of_nat k) by (apply Z.pow_pos_nonneg; lia). unfold P. lia.
    + unfold max_rows, generate_shift_trace. rewrite map_length, seq_length. discriminate.
Qed.

(** A table of one row and seven padding rows *)
Definition table_of (r : cpu) : list cpu := r :: repeat pad_row 7.
Lemma in_table r : In r (table_of r). Proof. left. reflexivity. Qed.
Lemma inner_table r : inner (table_of r) r. Proof. exists 0%nat, pad_row. auto. Qed.
Definition table_end (r : cpu) : list cpu := repeat pad_row 7 ++ [r].
Lemma in_table_end r : In r (table_end r). Proof. apply in_or_app. right. left. reflexivity. Qed.

Lemma forged_tables : cpu_accepted (table_of forged_slt) /\ cpu_accepted (table_of forged_divu) /\ cpu_accepted (table_of forged_remu) /\
  cpu_accepted (table_of forged_srl) /\ cpu_accepted (table_of forged_lb) /\ cpu_accepted (table_of forged_sb).
Proof. repeat split_and; apply check_table_ok; vm_compute; reflexivity. Qed.
(** LW of a word 5 claimed to give 6; SW of 7 claimed to store 9: nothing links the exchanged word to the register *)
Definition forged_lw : cpu := with_mem (honest 0 (Load wW false 3 2 0) 0 1000 5 4) 6 0 5 1000 0 0 0.
Definition forged_sw : cpu := with_mem (honest 0 (Store wW 2 1 0) 7 1000 0 4) 0 0 9 1000 0 0 0.
Lemma forged_tables2 : cpu_accepted (table_of forged_lw) /\ cpu_accepted (table_of forged_sw).
Proof. repeat split_and; apply check_table_ok; vm_compute; reflexivity. Qed.
(** the last row of the table may jump anywhere *)
Definition forged_last : cpu := with_pc (honest 0 (Alu rXOR 3 1 2) 5 3 6 4) 4242.
Definition forged_last_jalr : cpu := with_pc (honest 0 (Jalr 3 1 8) 16 0 4 24) 4242.
(** an environment call (public tape read) may jump anywhere *)
Definition forged_ecall : cpu :=
  with_pc (gen_row (mkState 2 false (repeat 0 10 ++ [4; 100; 0] ++ repeat 0 19) 0 (mkMem ∅ ∅) (mkTape [] 0) (mkTape [] 0) (mkTape [] 0) (mkTape [] 0) [] [] [])
     ECALL_INST (mkAux 0 4 None [] false 4 100 100 None (Some (mkSd 100 StorePublic [])))) 4242.
(** a jump to -8 mod p: target 2^32 - 8 less 2^32, taken although op1 + op2 does not overflow *)
Definition forged_jalr : cpu := with_pc (honest 0 (Jalr 3 1 8) 4294967280 0 4 4294967288) (P - 8).
Lemma forged_tables3 : cpu_accepted (table_end forged_last) /\ cpu_accepted (table_end forged_last_jalr) /\ cpu_accepted (table_of forged_ecall) /\
  cpu_accepted (table_of forged_jalr).
Proof. repeat split_and; apply check_table_ok; vm_compute; reflexivity. Qed.
