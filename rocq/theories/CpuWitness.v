(** Executable checker for acceptable CPU rows, and forged rows that it accepts. *)
From Verif Require Import CircuitSpec TableProofs.
Import RvSpec.
Open Scope Z_scope.

Definition canonb (x : Z) : bool := (0 <=? x) && (x <? P).
Definition u32b (x : Z) : bool := (0 <=? x) && (x <? 2 ^ 32).
Definition fzb (x : Z) : bool := x mod P =? 0.
Definition check_row (r : cpu) : bool :=
  forallb canonb (cpu_columns r) && forallb fzb (cpu_always r)
  && forallb (fun '(v, f) => fzb f || u32b (v mod P)) (rangecheck_looking r)
  && (fzb (ops_that_use_xor r) || (u32b (c_xor_a r) && u32b (c_xor_b r) && (c_xor_out r =? Z.lxor (c_xor_a r) (c_xor_b r))))
  && (fzb (ops_that_shift r) || ((0 <=? c_bs_amount r) && (c_bs_amount r <=? 31) && (c_bs_multiplier r =? 2 ^ c_bs_amount r))).

Lemma canonb_ok x : canonb x = true -> canon x.
Proof. unfold canonb, canon. rewrite andb_true_iff, Z.leb_le, Z.ltb_lt. auto. Qed.
Lemma u32b_ok x : u32b x = true -> u32 x.
Proof. unfold u32b, u32. rewrite andb_true_iff, Z.leb_le, Z.ltb_lt. auto. Qed.
Lemma fzb_ok x : fzb x = true <-> fzero x.
Proof. apply Z.eqb_eq. Qed.

Lemma row_ok_intro r : Forall canon (cpu_columns r) -> all_zero (cpu_always r) ->
  Forall (fun '(v, f) => ~ fzero f -> u32 (v mod P)) (rangecheck_looking r) ->
  (~ fzero (ops_that_use_xor r) -> u32 (c_xor_a r) /\ u32 (c_xor_b r) /\ c_xor_out r = Z.lxor (c_xor_a r) (c_xor_b r)) ->
  (~ fzero (ops_that_shift r) -> 0 <= c_bs_amount r <= 31 /\ c_bs_multiplier r = 2 ^ c_bs_amount r) -> cpu_row_ok r.
Proof.
  intros C A R X S. constructor; auto.
  - intros N. destruct (X N) as (Ua & Ub & E). exists (gen_xor_row (c_xor_a r) (c_xor_b r) (c_xor_out r)).
    rewrite E. destruct (xor_complete _ _ Ua Ub). auto.
  - intros N. destruct (S N) as (B & E).
    exists (generate_shift_trace []), (mkShift (c_bs_amount r) (c_bs_multiplier r) 0).
    split; [apply shift_complete|]. split; [|split; [|split; [|split; reflexivity]]].
    + unfold generate_shift_trace. apply Forall_forall. intros s I. apply in_map_iff in I as (k & <- & I). apply in_seq in I.
      unfold shift_canon, canon. cbn [s_amount s_multiplier].
      assert (2 ^ Z.of_nat k <= 2 ^ 31) by (apply Z.pow_le_mono_r; lia). assert (0 < 2 ^ Z.of_nat k) by (apply Z.pow_pos_nonneg; lia).
      unfold P. lia.
    + unfold max_rows, generate_shift_trace. rewrite map_length, seq_length. discriminate.
    + unfold generate_shift_trace. apply in_map_iff. exists (Z.to_nat (c_bs_amount r)). split; [|apply in_seq; lia].
      rewrite E, !Z2Nat.id by lia. reflexivity.
Qed.
Lemma check_row_ok r : check_row r = true -> cpu_row_ok r.
Proof.
  unfold check_row. rewrite !andb_true_iff. intros ((((C & A) & R) & X) & S). rewrite forallb_forall in C, A, R.
  apply row_ok_intro.
  - apply Forall_forall. intros x I. apply canonb_ok; auto.
  - apply Forall_forall. intros x I. apply fzb_ok; auto.
  - apply Forall_forall. intros [v f] I N. specialize (R _ I). cbn in R. apply orb_true_iff in R as [R|R]; [|apply u32b_ok; auto].
    apply fzb_ok in R. tauto.
  - intros N. apply orb_true_iff in X as [X|X]; [apply fzb_ok in X; tauto|]. rewrite !andb_true_iff in X. destruct X as ((X1 & X2) & X3).
    apply Z.eqb_eq in X3. auto using u32b_ok.
  - intros N. apply orb_true_iff in S as [S|S]; [apply fzb_ok in S; tauto|]. rewrite !andb_true_iff in S. destruct S as ((S1 & S2) & S3).
    apply Z.eqb_eq in S3. apply Z.leb_le in S1, S2. auto.
Qed.

(** ** Demonstration rows *)
Definition demo_state (a x1 x2 : Z) : state :=
  mkState 2 false (0 :: x1 :: x2 :: repeat 0 29) a (mkMem ∅ ∅) (mkTape [] 0) (mkTape [] 0) (mkTape [] 0) (mkTape [] 0) [] [] [].
(** the honest row for instruction [i] reading registers 1 and 2 *)
Definition honest (a : Z) (i : rv32) (x1 x2 v n : Z) : cpu :=
  let l := lower a i in
  let o2 := match iop l with SLL | SRL | SRA => 2 ^ ((x2 + imm (iargs l)) mod 32) | BEQ | BNE | BLT | BLTU | BGE | BGEU => x2 | _ => wadd x2 (imm (iargs l)) end in
  gen_row (demo_state a x1 x2) l (mkAux v n None [] false x1 o2 x2 None None).

Definition with_cmp (r : cpu) (lt ad dst : Z) : cpu :=
  mkCpu (c_clk r) (c_new_pc r) (c_inst r) (c_op1_value r) (c_op2_value_raw r) (c_op2_value r) (c_op2_value_overflowing r)
    dst (c_dst_sign_bit r) (c_mem_value_raw r) (c_op1_sign_bit r) (c_op2_sign_bit r)
    ad (c_cmp_diff_inv r) lt (c_normalised_diff r) (c_xor_a r) (c_xor_b r) (c_xor_out r) (c_bs_amount r) (c_bs_multiplier r)
    (c_op2_value_inv r) (c_quotient_value r) (c_quotient_sign r) (c_skip_quotient_sign r)
    (c_remainder_value r) (c_remainder_sign r) (c_remainder_slack r) (c_op1_abs r) (c_op2_abs r) (c_skip_product_sign r)
    (c_product_sign r) (c_product_high r) (c_product_low r) (c_product_high_inv r) (c_mem_addr r) (c_io_addr r) (c_io_size r) (c_ecall r).
Definition with_div (r : cpu) (q qs skip rv rs slack dst : Z) : cpu :=
  mkCpu (c_clk r) (c_new_pc r) (c_inst r) (c_op1_value r) (c_op2_value_raw r) (c_op2_value r) (c_op2_value_overflowing r)
    dst (c_dst_sign_bit r) (c_mem_value_raw r) (c_op1_sign_bit r) (c_op2_sign_bit r)
    (c_abs_diff r) (c_cmp_diff_inv r) (c_less_than r) (c_normalised_diff r) (c_xor_a r) (c_xor_b r) (c_xor_out r) (c_bs_amount r) (c_bs_multiplier r)
    (c_op2_value_inv r) q qs skip rv rs slack (c_op1_abs r) (c_op2_abs r) (c_skip_product_sign r)
    (c_product_sign r) (c_product_high r) (c_product_low r) (c_product_high_inv r) (c_mem_addr r) (c_io_addr r) (c_io_size r) (c_ecall r).
Definition with_pc (r : cpu) (n : Z) : cpu :=
  mkCpu (c_clk r) n (c_inst r) (c_op1_value r) (c_op2_value_raw r) (c_op2_value r) (c_op2_value_overflowing r)
    (c_dst_value r) (c_dst_sign_bit r) (c_mem_value_raw r) (c_op1_sign_bit r) (c_op2_sign_bit r)
    (c_abs_diff r) (c_cmp_diff_inv r) (c_less_than r) (c_normalised_diff r) (c_xor_a r) (c_xor_b r) (c_xor_out r) (c_bs_amount r) (c_bs_multiplier r)
    (c_op2_value_inv r) (c_quotient_value r) (c_quotient_sign r) (c_skip_quotient_sign r)
    (c_remainder_value r) (c_remainder_sign r) (c_remainder_slack r) (c_op1_abs r) (c_op2_abs r) (c_skip_product_sign r)
    (c_product_sign r) (c_product_high r) (c_product_low r) (c_product_high_inv r) (c_mem_addr r) (c_io_addr r) (c_io_size r) (c_ecall r).

(** SLT 5 < 3 claimed true: the difference is stored negated, and is not range checked *)
Definition forged_slt : cpu := with_cmp (honest 0 (Alu rSLT 3 1 2) 5 3 0 4) 1 (P - 2) 1.
(** one half in the field *)
Definition half : Z := 9223372034707292161.
(** 3 / 5 claimed to be 2^30: quotient sign 1/2 makes the absolute value of the quotient 0 *)
Definition forged_divu : cpu := with_div (honest 0 (Alu rDIVU 3 1 2) 3 5 0 4) (2 ^ 30) half 1 3 0 1 (2 ^ 30).
Definition forged_remu : cpu :=
  with_div (honest 0 (Alu rREMU 3 1 2) 3 2863311530 3 4) (3 * 2 ^ 30) ((3 * half) mod P) 1 4 0 (2863311530 - 5) 4.
Definition forged_srl : cpu := with_div (honest 0 (Alu rSRL 3 1 2) 3 5 0 4) (2 ^ 30) half 1 3 0 28 (2 ^ 30).


(** LB of the byte 5 claimed to give 0xFFFFFF05: the sign bit of the destination is free *)
Definition with_mem (r : cpu) (dst sb raw addr xa xb xo : Z) : cpu :=
  mkCpu (c_clk r) (c_new_pc r) (c_inst r) (c_op1_value r) (c_op2_value_raw r) (c_op2_value r) (c_op2_value_overflowing r)
    dst sb raw (c_op1_sign_bit r) (c_op2_sign_bit r)
    (c_abs_diff r) (c_cmp_diff_inv r) (c_less_than r) (c_normalised_diff r) xa xb xo (c_bs_amount r) (c_bs_multiplier r)
    (c_op2_value_inv r) (c_quotient_value r) (c_quotient_sign r) (c_skip_quotient_sign r)
    (c_remainder_value r) (c_remainder_sign r) (c_remainder_slack r) (c_op1_abs r) (c_op2_abs r) (c_skip_product_sign r)
    (c_product_sign r) (c_product_high r) (c_product_low r) (c_product_high_inv r) addr (c_io_addr r) (c_io_size r) (c_ecall r).
Definition forged_lb : cpu := with_mem (honest 0 (Load wB false 3 2 0) 0 1000 5 4) 4294967045 1 5 1000 0 0 0.
(** SB of 7 claimed to store 9: the XOR used to truncate is not looked up *)
Definition forged_sb : cpu := with_mem (honest 0 (Store wB 2 1 0) 7 1000 0 4) 0 0 9 1000 7 255 (7 + 255 - 18).

Lemma forged_ok : cpu_row_ok forged_slt /\ cpu_row_ok forged_divu /\ cpu_row_ok forged_remu /\ cpu_row_ok forged_srl /\
  cpu_row_ok forged_lb /\ cpu_row_ok forged_sb.
Proof. repeat split_and; apply check_row_ok; vm_compute; reflexivity. Qed.

(** rows of [honest] carry the instruction they were built for *)
Ltac carry := constructor; try reflexivity; try (cbn; unfold is_reg, is_imm12, u32, u8; lia); try discriminate;
  try (cbn; unfold is_reg, is_imm12; repeat split; try lia; discriminate).
Lemma forged_carries : carries forged_slt 0 (Alu rSLT 3 1 2) 5 3 /\ carries forged_divu 0 (Alu rDIVU 3 1 2) 3 5 /\
  carries forged_remu 0 (Alu rREMU 3 1 2) 3 2863311530 /\ carries forged_srl 0 (Alu rSRL 3 1 2) 3 5 /\
  carries forged_lb 0 (Load wB false 3 2 0) 0 1000 /\ carries forged_sb 0 (Store wB 2 1 0) 7 1000.
Proof. repeat split_and; carry. Qed.
