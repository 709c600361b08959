(** Completeness of the CPU table, part 2: every generated row satisfies every constraint and every lookup. *)
From Verif Require Import RunSpec CircuitSpec TableProofs CpuArith CpuProofs ExecProofs StepProofs CpuWitness CpuComplete.
Import RvSpec.
Open Scope Z_scope.
Ltac Zify.zify_post_hook ::= Z.div_mod_to_equations.

(** What a provable step records in its auxiliary data *)
Record step_facts (s : state) (i : instruction) (a : aux) : Prop := {
  sf_o1 : op1 a = reg s (rs1 (iargs i)); sf_u1 : u32 (op1 a);
  sf_raw : op2_raw a = reg s (rs2 (iargs i)); sf_uraw : u32 (op2_raw a);
  sf_imm : u32 (imm (iargs i));
  sf_regs : u32 (rd (iargs i)) /\ u32 (rs1 (iargs i)) /\ u32 (rs2 (iargs i));
  sf_nov : is_br (iop i) = false -> is_mem (iop i) = false -> op2_raw a + imm (iargs i) < 2 ^ 32;
  sf_op2 : op2 a = op2_of i (op2_raw a);
  sf_dst : u32 (dst_val a);
  sf_pc : u32 (pc s);
  sf_npc : u32 (new_pc a);
  sf_alu : forall f, alu_fun (iop i) = Some f -> dst_val a = f (op1 a) (wadd (op2_raw a) (imm (iargs i)));
  sf_nomem : is_mem (iop i) = false -> amem a = None;
  sf_mem : is_mem (iop i) = true -> exists m, amem a = Some (mkMemEntry (op2 a) m) /\ u32 m /\
    match iop i with
    | LB => u8 m /\ dst_val a = wrap32 (as_i8 m)
    | LBU => u8 m /\ dst_val a = m
    | LH => 0 <= m < 65536 /\ dst_val a = wrap32 (as_i16 m)
    | LHU => 0 <= m < 65536 /\ dst_val a = m
    | SB => m = Z.land (op1 a) 255
    | SH => m = Z.land (op1 a) 65535
    | _ => True
    end;
  sf_branch : match iop i with
    | BEQ => new_pc a = if op1 a =? op2_raw a then imm (iargs i) else pc s + 4
    | BNE => new_pc a = if op1 a =? op2_raw a then pc s + 4 else imm (iargs i)
    | BLT => new_pc a = if sg (op1 a) <? sg (op2_raw a) then imm (iargs i) else pc s + 4
    | BGE => new_pc a = if sg (op1 a) <? sg (op2_raw a) then pc s + 4 else imm (iargs i)
    | BLTU => new_pc a = if op1 a <? op2_raw a then imm (iargs i) else pc s + 4
    | BGEU => new_pc a = if op1 a <? op2_raw a then pc s + 4 else imm (iargs i)
    | JALR => dst_val a = wadd (pc s) 4 /\ new_pc a = wadd (op1 a) (op2 a)
    | ECALL => True
    | _ => new_pc a = pc s + 4
    end;
  sf_dev : iop i <> ECALL -> poseidon2 a = None /\ storage_device_entry a = None;
  sf_ecall : iop i = ECALL -> op1 a = reg s REG_A0 /\
    ((reg s REG_A0 = 0 /\ poseidon2 a = None /\ storage_device_entry a = None) \/
     (reg s REG_A0 = 3 /\ (exists x, poseidon2 a = Some x) /\ storage_device_entry a = None) \/
     (exists e, read_call (reg s REG_A0) = Some (sd_opcode e) /\ poseidon2 a = None /\ storage_device_entry a = Some e /\
        u32 (sd_addr e) /\ u32 (Z.of_nat (length (sd_data e)))));
  sf_special : op2_signed (iop i) = true -> ~ (sg (op1 a) = -31 /\ sg (op2 a) = -1);
  sf_here : iop i <> ADD }.

(** the operands of a step as integers *)
Definition d_s1 (i : instruction) : bool := op1_signed (iop i).
Definition d_s2 (i : instruction) : bool := op2_signed (iop i).
Definition d_f1 (i : instruction) (a : aux) : Z := compute_full_range (d_s1 i) (op1 a).
Definition d_f2 (i : instruction) (a : aux) : Z := compute_full_range (d_s2 i) (op2 a).

Section Gen.
Context (s : state) (i : instruction) (a : aux) (F : step_facts s i a).
Local Notation s1 := (d_s1 i).
Local Notation s2 := (d_s2 i).
Local Notation f1 := (d_f1 i a).
Local Notation f2 := (d_f2 i a).
Local Notation r := (gen_row s i a).

Lemma gr_op : c_op r = selv (iop i).
Proof. unfold gen_row, c_op. destruct (gen_product _ _) as [[? ?] ?], (gen_div _ _ _ _ _) as [[[[[? ?] ?] ?] ?] ?]. reflexivity. Qed.
Ltac col := unfold gen_row, c_imm, c_pc; destruct (gen_product _ _) as [[? ?] ?], (gen_div _ _ _ _ _) as [[[[[? ?] ?] ?] ?] ?]; reflexivity.
Lemma gr_inst : c_inst r = inst_cols (pc s) i. Proof. col. Qed.
Lemma gr_imm : c_imm r = imm (iargs i). Proof. col. Qed.
Lemma gr_pc : c_pc r = pc s. Proof. col. Qed.
Lemma gr_npc : c_new_pc r = new_pc a. Proof. col. Qed.
Lemma gr_op1 : c_op1_value r = op1 a. Proof. col. Qed.
Lemma gr_op2 : c_op2_value r = op2 a. Proof. col. Qed.
Lemma gr_raw : c_op2_value_raw r = op2_raw a. Proof. col. Qed.
Lemma gr_ovf : c_op2_value_overflowing r = op2_raw a + imm (iargs i). Proof. rewrite (sf_raw _ _ _ F). col. Qed.
Lemma gr_dst : c_dst_value r = dst_val a. Proof. col. Qed.
Lemma gr_dsb : c_dst_sign_bit r = gen_dst_sign i (dst_val a). Proof. col. Qed.
Lemma gr_mraw : c_mem_value_raw r = match amem a with Some m => me_raw_value m | None => 0 end. Proof. col. Qed.
Lemma gr_maddr : c_mem_addr r = match amem a with Some m => me_addr m | None => 0 end. Proof. col. Qed.
Lemma gr_sb1 : c_op1_sign_bit r = b2z (f1 <? 0). Proof. col. Qed.
Lemma gr_sb2 : c_op2_sign_bit r = b2z (f2 <? 0). Proof. col. Qed.
Lemma gr_ad : c_abs_diff r = Z.abs (f1 - f2). Proof. col. Qed.
Lemma gr_cdi : c_cmp_diff_inv r = finv ((f1 - f2) mod P). Proof. col. Qed.
Lemma gr_lt : c_less_than r = b2z (f1 <? f2). Proof. col. Qed.
Lemma gr_nd : c_normalised_diff r = b2z (negb ((f1 - f2) mod P =? 0)). Proof. col. Qed.
Lemma gr_xa : c_xor_a r = fst (gen_xor i (op1 a) (op2_raw a)). Proof. rewrite (sf_raw _ _ _ F), (sf_o1 _ _ _ F). col. Qed.
Lemma gr_xb : c_xor_b r = snd (gen_xor i (op1 a) (op2_raw a)). Proof. rewrite (sf_raw _ _ _ F), (sf_o1 _ _ _ F). col. Qed.
Lemma gr_xo : c_xor_out r = Z.lxor (c_xor_a r) (c_xor_b r). Proof. col. Qed.
Lemma gr_bsa : c_bs_amount r = gen_shift_amount (op2 a). Proof. col. Qed.
Lemma gr_bsm : c_bs_multiplier r = op2 a. Proof. col. Qed.
Lemma gr_inv : c_op2_value_inv r = finv (op2 a). Proof. col. Qed.
Lemma gr_a1 : c_op1_abs r = Z.abs f1. Proof. col. Qed.
Lemma gr_a2 : c_op2_abs r = Z.abs f2. Proof. col. Qed.
Lemma gr_sps : c_skip_product_sign r = b2z (Z.abs f1 * Z.abs f2 =? 0). Proof. col. Qed.
Lemma gr_prod : gen_product f1 f2 = (c_product_sign r, c_product_high r, c_product_low r). 
Proof. unfold gen_row. unfold d_f1, d_f2, d_s1, d_s2. destruct (gen_product _ _) as [[? ?] ?], (gen_div _ _ _ _ _) as [[[[[? ?] ?] ?] ?] ?]. reflexivity. Qed.
Lemma gr_phi : c_product_high_inv r = finv (if c_product_sign r =? 1 then c_product_high r else 4294967295 - c_product_high r). Proof. col. Qed.
Lemma gr_div : gen_div i s2 (op1 a) f1 f2 = (c_quotient_value r, c_quotient_sign r, c_skip_quotient_sign r,
  c_remainder_value r, c_remainder_sign r, c_remainder_slack r).
Proof. unfold gen_row. unfold d_f1, d_f2, d_s1, d_s2. destruct (gen_product _ _) as [[? ?] ?], (gen_div _ _ _ _ _) as [[[[[? ?] ?] ?] ?] ?]. reflexivity. Qed.
Lemma gr_ecall : c_ecall r = gen_ecall i a (reg s REG_A0). Proof. col. Qed.
Lemma gr_clk : c_clk r = clk s mod P. Proof. col. Qed.
Lemma gr_ioa : c_io_addr r = match storage_device_entry a with Some e => sd_addr e | None => 0 end. Proof. col. Qed.
Lemma gr_ios : c_io_size r = match storage_device_entry a with Some e => Z.of_nat (length (sd_data e)) | None => 0 end. Proof. col. Qed.
Lemma gr_s1 : i_op1_signed (c_inst r) = b2z s1. Proof. rewrite gr_inst. reflexivity. Qed.
Lemma gr_s2 : i_op2_signed (c_inst r) = b2z s2. Proof. rewrite gr_inst. reflexivity. Qed.
Lemma gr_ds : i_dst_signed (c_inst r) = b2z (dst_signed (iop i)). Proof. rewrite gr_inst. reflexivity. Qed.

(** *** Operands *)
Lemma u_op2 : u32 (op2 a).
Proof.
  rewrite (sf_op2 _ _ _ F). pose proof (sf_uraw _ _ _ F). pose proof (sf_imm _ _ _ F).
  assert (SH : forall x, u32 (Z.shiftl 1 (Z.land x 31))).
  { intros x. rewrite ExecProofs.land31. pose proof (mod32 x). rewrite Z.shiftl_mul_pow2 by lia. unfold u32.
    assert (2 ^ (x mod 32) <= 2 ^ 31) by (apply Z.pow_le_mono_r; lia). assert (0 < 2 ^ (x mod 32)) by (apply Z.pow_pos_nonneg; lia). lia. }
  unfold op2_of. destruct (iop i); auto; apply wrap32_u32.
Qed.
Lemma full_ok (b : bool) v : u32 v -> let f := compute_full_range b v in
  Z.abs f < 2 ^ 32 /\ f = v - b2z (f <? 0) * 2 ^ 32 /\ (b = false -> f = v) /\ (b = true -> f = sg v /\ - 2 ^ 31 <= f < 2 ^ 31).
Proof.
  unfold u32, compute_full_range, as_i32, sg, M32. intros U. change (2 ^ 31) with 2147483648. change (2 ^ 32) with 4294967296.
  destruct b; cbv zeta.
  - destruct (Z.ltb_spec v 2147483648).
    + destruct (Z.ltb_spec v 0); cbn [b2z]; lia.
    + destruct (Z.ltb_spec (v - 4294967296) 0); cbn [b2z]; lia.
  - destruct (Z.ltb_spec v 0); cbn [b2z]; lia.
Qed.
Lemma F1 : Z.abs f1 < 2 ^ 32 /\ f1 = op1 a - b2z (f1 <? 0) * 2 ^ 32 /\ (s1 = false -> f1 = op1 a) /\ (s1 = true -> f1 = sg (op1 a) /\ - 2 ^ 31 <= f1 < 2 ^ 31).
Proof. apply full_ok, (sf_u1 _ _ _ F). Qed.
Lemma F2 : Z.abs f2 < 2 ^ 32 /\ f2 = op2 a - b2z (f2 <? 0) * 2 ^ 32 /\ (s2 = false -> f2 = op2 a) /\ (s2 = true -> f2 = sg (op2 a) /\ - 2 ^ 31 <= f2 < 2 ^ 31).
Proof. apply full_ok, u_op2. Qed.
Lemma fr1 : op1_full_range r = f1.
Proof. unfold op1_full_range. rewrite gr_op1, gr_sb1. symmetry. apply F1. Qed.
Lemma fr2 : op2_full_range r = f2.
Proof. unfold op2_full_range. rewrite gr_op2, gr_sb2. symmetry. apply F2. Qed.
Lemma diffv : signed_diff r = f1 - f2.
Proof. unfold signed_diff. rewrite fr1, fr2. reflexivity. Qed.
Lemma nov : is_br (iop i) = false -> is_mem (iop i) = false -> wadd (op2_raw a) (imm (iargs i)) = op2_raw a + imm (iargs i).
Proof.
  intros B M. pose proof (sf_nov _ _ _ F B M). pose proof (sf_uraw _ _ _ F). pose proof (sf_imm _ _ _ F).
  unfold wadd, wrap32, u32 in *. apply Z.mod_small. lia.
Qed.
Lemma op2_alu f : alu_fun (iop i) = Some f -> is_sh (iop i) = false -> dst_val a = f (op1 a) (op2 a).
Proof. intros E S. rewrite (sf_alu _ _ _ F f E), (sf_op2 _ _ _ F). unfold op2_of. destruct (iop i); try discriminate; reflexivity. Qed.
(** the shift amount and multiplier *)
Lemma sh_amount : is_sh (iop i) = true -> let k := (op2_raw a + imm (iargs i)) mod 32 in
  op2 a = 2 ^ k /\ c_bs_amount r = k /\ 0 <= k < 32.
Proof.
  intros S k. assert (B : is_br (iop i) = false /\ is_mem (iop i) = false) by (destruct (iop i); try discriminate; auto).
  assert (K : 0 <= k < 32) by (apply mod32).
  assert (E : op2 a = 2 ^ k).
  { rewrite (sf_op2 _ _ _ F). unfold op2_of. destruct (iop i) eqn:O; try discriminate; rewrite nov by (rewrite O; tauto);
      rewrite ExecProofs.land31, Z.shiftl_mul_pow2 by lia; fold k; lia. }
  split; auto. split; auto. rewrite gr_bsa. unfold gen_shift_amount. rewrite E.
  assert (0 < 2 ^ k) by (apply Z.pow_pos_nonneg; lia). destruct (Z.eqb_spec (2 ^ k) 0); [lia|]. apply Z.log2_pow2. lia.
Qed.

Ltac zeros := unfold all_zero; repeat apply List.Forall_cons; try apply Forall_nil.
Ltac ops := rewrite ?gr_op.
Ltac sel := repeat match goal with |- context [selv ?o ?x] => let v := eval vm_compute in (selv o x) in change (selv o x) with v end.
Ltac by_op := destruct (iop i) eqn:O; cbn [selv sel_of decide].

Lemma g_binary : all_zero (binary_selectors r).
Proof.
  unfold binary_selectors, is_running. rewrite gr_op. destruct (iop i); repeat constructor.
Qed.
Lemma g_op2 : all_zero (populate_op2_value r).
Proof.
  assert (B : is_branch_operation r = b2z (is_br (iop i))) by (unfold is_branch_operation; ops; destruct (iop i); reflexivity).
  assert (S : is_shift_operation r = b2z (is_sh (iop i))) by (unfold is_shift_operation; ops; destruct (iop i); reflexivity).
  assert (M : is_mem_op r = b2z (is_mem (iop i))) by (unfold is_mem_op; ops; destruct (iop i); reflexivity).
  unfold populate_op2_value. rewrite B, S, M, gr_op2, gr_raw, gr_bsm, gr_ovf, gr_imm.
  assert (OB : is_br (iop i) = true -> op2 a = op2_raw a).
  { rewrite (sf_op2 _ _ _ F). unfold op2_of. destruct (iop i); try discriminate; auto. }
  assert (ON : is_br (iop i) = false -> is_sh (iop i) = false -> op2 a = wadd (op2_raw a) (imm (iargs i))).
  { rewrite (sf_op2 _ _ _ F). unfold op2_of. destruct (iop i); try discriminate; auto. }
  pose proof (sf_uraw _ _ _ F) as U1. pose proof (sf_imm _ _ _ F) as U2. pose proof nov as NV.
  assert (DJ : is_br (iop i) = true -> is_sh (iop i) = false) by (destruct (iop i); auto; discriminate).
  zeros.
  - apply fz0. destruct (is_br (iop i)); cbn [b2z]; [rewrite OB by auto|]; lia.
  - apply fz0. lia.
  - apply fz0. lia.
  - apply fz0. destruct (is_br (iop i)), (is_sh (iop i)); cbn [b2z] in *; try lia; try (specialize (DJ eq_refl); discriminate).
    rewrite ON by auto. destruct (is_mem (iop i)); cbn [b2z].
    + unfold wadd, wrap32, u32 in *. set (x := op2_raw a + imm (iargs i)) in *.
      assert (x mod 4294967296 = x \/ x mod 4294967296 = x - 4294967296) as [->| ->] by lia; change (2 ^ 32) with 4294967296; ring.
    + rewrite NV by auto. ring.
Qed.
Lemma g_add : fzero (c_op r o_add).
Proof. ops. pose proof (sf_here _ _ _ F). destruct (iop i); try congruence; reflexivity. Qed.
Lemma g_sub : all_zero (sub_constraints r).
Proof.
  unfold sub_constraints. ops. zeros. destruct (decide (iop i = SUB)) as [O|O]; [|destruct (iop i); try congruence; reflexivity].
  rewrite gr_dst, gr_op1, gr_op2, (op2_alu wsub) by (rewrite O; reflexivity). apply fz0.
  pose proof (sf_u1 _ _ _ F) as U1. pose proof u_op2 as U2. unfold wsub, wrap32, u32 in *. set (x := op1 a - op2 a).
  assert (x mod 4294967296 = x \/ x mod 4294967296 = 4294967296 + x) as [->| ->] by (unfold x; lia); change (2 ^ 32) with 4294967296; ring.
Qed.

(** the XOR gadget *)
Lemma u_xor : u32 (c_xor_a r) /\ u32 (c_xor_b r).
Proof.
  rewrite gr_xa, gr_xb. pose proof (sf_u1 _ _ _ F). unfold gen_xor. cbn [fst snd].
  split; destruct (iop i); auto; try apply wrap32_u32; unfold u32; lia.
Qed.
Lemma and2 : and_doubled r = 2 * Z.land (c_xor_a r) (c_xor_b r).
Proof. unfold and_doubled. rewrite gr_xo. destruct u_xor as [A B]. apply lxor_land_sum; [apply A|apply B]. Qed.
Lemma or2 : or_doubled r = 2 * Z.lor (c_xor_a r) (c_xor_b r).
Proof. unfold or_doubled. rewrite gr_xo. destruct u_xor as [A B]. apply lxor_lor_sum; [apply A|apply B]. Qed.
Lemma g_bitwise : all_zero (bitwise_constraints r).
Proof.
  unfold bitwise_constraints. cbn [flat_map app]. rewrite and2, or2. unfold xor_doubled. rewrite gr_xo. ops.
  destruct (decide (iop i = AND \/ iop i = OR \/ iop i = XOR)) as [O|O].
  - assert (X : c_xor_a r = op1 a /\ c_xor_b r = op2 a).
    { rewrite gr_xa, gr_xb, (sf_op2 _ _ _ F). unfold gen_xor, op2_of. destruct O as [->|[->| ->]]; auto. }
    destruct X as [-> ->]. rewrite gr_op1, gr_op2, gr_dst.
    destruct O as [O|[O|O]]; (erewrite op2_alu by (rewrite O; reflexivity)); rewrite O; zeros; apply fz0; sel; cbn [b2z negb]; ring.
  - destruct (iop i); try tauto; zeros; reflexivity.
Qed.
Lemma g_compare : all_zero (comparison_constraints r).
Proof.
  unfold comparison_constraints. cbv zeta. rewrite diffv, gr_lt, gr_ad, gr_nd, gr_cdi.
  apply (gen_compare f1 f2); [apply F1|apply F2].
Qed.
Lemma nd_val : c_normalised_diff r = b2z (negb (f1 =? f2)).
Proof. rewrite gr_nd. apply (gen_compare f1 f2); [apply F1|apply F2]. Qed.
Lemma g_branch : all_zero (branch_constraints r).
Proof.
  unfold branch_constraints. cbv zeta. rewrite nd_val, gr_lt, gr_npc, gr_pc, gr_imm. ops.
  pose proof (sf_branch _ _ _ F) as BR. pose proof F1 as (_ & _ & N1 & Y1). pose proof F2 as (_ & _ & N2 & Y2).
  unfold d_s1, d_s2 in *. pose proof (sf_op2 _ _ _ F) as E2. unfold op2_of in E2.
  destruct (iop i) eqn:O; try (zeros; reflexivity); cbn [op1_signed op2_signed] in *;
    try (destruct (Y1 eq_refl) as [Z1 _]; destruct (Y2 eq_refl) as [Z2 _]; rewrite Z1, Z2); try rewrite (N1 eq_refl), (N2 eq_refl); rewrite E2; rewrite BR;
    match goal with |- context [if ?b then _ else _] => destruct b end; zeros; apply fz0; sel; cbn [b2z negb]; ring.
Qed.
Lemma g_memory : all_zero (memory_constraints r).
Proof.
  unfold memory_constraints. rewrite and2. unfold is_mem_op. rewrite gr_dsb, gr_ds, gr_dst, gr_mraw, gr_maddr, gr_op1, gr_op2. ops.
  destruct (is_mem (iop i)) eqn:M.
  - destruct (sf_mem _ _ _ F M) as (m & -> & Um & K). cbn [me_addr me_raw_value].
    pose proof gr_xa as Xa. pose proof gr_xb as Xb. unfold gen_xor in Xa, Xb. unfold gen_dst_sign.
    destruct (iop i) eqn:O; try discriminate M; cbn [dst_signed b2z fst snd] in *.
    + destruct K as [U K]. assert (D : dst_val a = m + b2z (128 <=? dst_val a) * 4294967040).
      { rewrite K. unfold as_i8, wrap32, u8 in *. destruct (Z.ltb_spec (m mod 256) 128);
          match goal with |- context [128 <=? ?x] => destruct (Z.leb_spec 128 x) end; cbn [b2z]; lia. }
      zeros; try reflexivity; try (apply is_binary_01, bit_b2z); try (apply fz0; sel; cbn [b2z negb]; ring). rewrite D at 1. apply fz0; sel; cbn [b2z negb]; ring.
    + destruct K as [U K]. assert (D : dst_val a = m + b2z (32768 <=? dst_val a) * 4294901760).
      { rewrite K. unfold as_i16, wrap32, u8 in *. destruct (Z.ltb_spec (m mod 65536) 32768);
          match goal with |- context [32768 <=? ?x] => destruct (Z.leb_spec 32768 x) end; cbn [b2z]; lia. }
      zeros; try reflexivity; try (apply is_binary_01, bit_b2z); try (apply fz0; sel; cbn [b2z negb]; ring). rewrite D at 1. apply fz0; sel; cbn [b2z negb]; ring.
    + zeros; try reflexivity; apply fz0; sel; cbn [b2z negb]; ring.
    + destruct K as [U K]. zeros; try reflexivity; apply fz0; sel; cbn [b2z]; rewrite ?K; ring.
    + destruct K as [U K]. zeros; try reflexivity; apply fz0; sel; cbn [b2z]; rewrite ?K; ring.
    + zeros; try reflexivity; apply fz0; sel; cbn [b2z]; rewrite ?Xa, ?Xb, ?K; ring.
    + zeros; try reflexivity; apply fz0; sel; cbn [b2z]; rewrite ?Xa, ?Xb, ?K; ring.
    + zeros; try reflexivity; apply fz0; sel; cbn [b2z negb]; ring.
  - unfold gen_dst_sign. destruct (iop i); try discriminate M; zeros; reflexivity.
Qed.
Lemma g_signed : all_zero (signed_constraints r).
Proof.
  unfold signed_constraints. rewrite gr_sb1, gr_sb2, gr_s1, gr_s2.
  pose proof F1 as (_ & _ & N1 & Y1). pose proof F2 as (_ & _ & N2 & Y2).
  pose proof (sf_u1 _ _ _ F) as U1. pose proof u_op2 as U2.
  zeros; try (apply is_binary_01, bit_b2z).
  - destruct s1; [apply fz0; sel; cbn [b2z negb]; ring|]. rewrite (N1 eq_refl). destruct (Z.ltb_spec (op1 a) 0); [unfold u32 in *; lia|reflexivity].
  - destruct s2; [apply fz0; sel; cbn [b2z negb]; ring|]. rewrite (N2 eq_refl). destruct (Z.ltb_spec (op2 a) 0); [unfold u32 in *; lia|reflexivity].
Qed.
Lemma g_slt : all_zero (slt_constraints r).
Proof.
  unfold slt_constraints. ops. rewrite gr_lt, gr_dst. pose proof F1 as (_ & _ & N1 & Y1). pose proof F2 as (_ & _ & N2 & Y2).
  unfold d_s1, d_s2 in *. pose proof op2_alu as A.
  destruct (iop i) eqn:O; zeros; try reflexivity; cbn [op1_signed op2_signed] in *; erewrite A by reflexivity;
    try (destruct (Y1 eq_refl) as [Z1 _]; destruct (Y2 eq_refl) as [Z2 _]; rewrite Z1, Z2); try rewrite (N1 eq_refl), (N2 eq_refl); apply fz0; cbv beta; change as_i32 with sg; sel; ring.
Qed.
Lemma g_shift : all_zero (shift_constraints r).
Proof.
  unfold shift_constraints. cbv zeta. rewrite and2. ops. rewrite gr_raw, gr_imm.
  destruct (is_sh (iop i)) eqn:S; [|destruct (iop i); try discriminate S; zeros; reflexivity].
  destruct (sh_amount S) as (_ & K & Bk). rewrite K.
  assert (B : is_br (iop i) = false /\ is_mem (iop i) = false) by (destruct (iop i); try discriminate; auto).
  assert (X : c_xor_a r = 31 /\ c_xor_b r = op2_raw a + imm (iargs i)).
  { rewrite gr_xa, gr_xb. pose proof nov as NV. unfold gen_xor. destruct (iop i) eqn:O; try discriminate S; cbn [fst snd]; rewrite NV by tauto; auto. }
  destruct X as [-> ->]. pose proof (sf_uraw _ _ _ F) as U1. pose proof (sf_imm _ _ _ F) as U2. rewrite CpuArith.land31 by (unfold u32 in *; lia).
  zeros; apply fz0; ring.
Qed.
Lemma unsigned1 : op1_signed (iop i) = false -> f1 = op1 a.
Proof. intros E. apply F1. exact E. Qed.
Lemma unsigned2 : op2_signed (iop i) = false -> f2 = op2 a.
Proof. intros E. apply F2. exact E. Qed.
Lemma signed1 : op1_signed (iop i) = true -> f1 = sg (op1 a).
Proof. intros E. apply F1. exact E. Qed.
Lemma signed2 : op2_signed (iop i) = true -> f2 = sg (op2 a).
Proof. intros E. apply F2. exact E. Qed.

(** *** Product *)
Lemma prod_facts : let ps := c_product_sign r in let high := c_product_high r in let low := c_product_low r in
  u32 high /\ u32 low /\ bit ps /\ (0 <= f1 -> 0 <= f2 -> ps = 0) /\ canon (c_product_high_inv r) /\
  f1 * f2 = (high - ps * 2 ^ 32) * 2 ^ 32 + low /\
  all_zero [is_binary ps;
   (1 - ps) * (high * 2 ^ 32 + low - Z.abs f1 * Z.abs f2);
   ps * (2 ^ 32 * (2 ^ 32 - high) - low - Z.abs f1 * Z.abs f2);
   (1 - ps) * (1 - (4294967295 - high) * c_product_high_inv r);
   ps * (1 - high * c_product_high_inv r);
   b2z (Z.abs f1 * Z.abs f2 =? 0) * Z.abs f1 * Z.abs f2;
   (1 - b2z (Z.abs f1 * Z.abs f2 =? 0)) * (bit_to_sign ps - bit_to_sign (b2z (f1 <? 0)) * bit_to_sign (b2z (f2 <? 0)))].
Proof.
  cbv zeta. pose proof (gen_product_ok f1 f2 (proj1 F1) (proj1 F2)) as G. rewrite gr_prod in G. cbv beta iota zeta in G.
  rewrite gr_phi. exact G.
Qed.
Lemma g_mul : all_zero (mul_constraints r).
Proof.
  unfold mul_constraints. cbv zeta. rewrite fr1, fr2, gr_a1, gr_a2, gr_sb1, gr_sb2, gr_s1, gr_sps, gr_dst.
  destruct prod_facts as (Uh & Ul & Bp & Np & _ & E & G). cbv zeta in *.
  unfold all_zero in G. repeat (let H := fresh "Z" in pose proof (Forall_inv G) as H; apply Forall_inv_tail in G).
  assert (A : forall f, f * bit_to_sign (b2z (f <? 0)) = Z.abs f).
  { intros f. unfold bit_to_sign. destruct (Z.ltb_spec f 0); cbn [b2z]; lia. }
  pose proof (sf_u1 _ _ _ F) as U1. pose proof u_op2 as U2.
  zeros; auto.
  - rewrite A. apply fz0. lia.
  - rewrite A. apply fz0. lia.
  - destruct s1 eqn:S1; [apply fz0; cbn [b2z]; ring|]. rewrite Np; [apply fz0; ring| |].
    + rewrite unsigned1 by exact S1. apply U1.
    + rewrite unsigned2; [apply U2|]. unfold d_s1 in S1. destruct (iop i); try discriminate S1; reflexivity.
  - ops. destruct (decide (iop i = MUL \/ iop i = SLL)) as [O|O]; [|destruct (iop i); try tauto; reflexivity].
    rewrite unsigned1, unsigned2 in E by (destruct O as [-> | ->]; reflexivity).
    apply mul_low in E; auto. rewrite E. apply fz0. destruct O as [O|O].
    + rewrite (op2_alu wmul) by (rewrite O; reflexivity). unfold wmul. rewrite wrap32_word. ring.
    + destruct (sh_amount ltac:(rewrite O; reflexivity)) as (-> & _ & K). rewrite (sf_alu _ _ _ F _ ltac:(rewrite O; reflexivity)).
      rewrite ExecProofs.land31, nov by (rewrite O; reflexivity). rewrite Z.shiftl_mul_pow2 by lia. rewrite wrap32_word. ring.
  - ops. destruct (decide (sel_of (iop i) = o_mulh)) as [O|O]; [|destruct (iop i); try (exfalso; apply O; reflexivity); reflexivity].
    apply mul_high in E; auto. rewrite E. apply fz0. pose proof signed1 as Sg1. pose proof signed2 as Sg2. pose proof unsigned1 as Un1. pose proof unsigned2 as Un2.
    pose proof op2_alu as AL.
    destruct (iop i); try discriminate O; (erewrite AL by reflexivity); unfold mulh, mulhu, mulhsu;
      try rewrite (Sg1 eq_refl); try rewrite (Sg2 eq_refl); try rewrite (Un1 eq_refl); try rewrite (Un2 eq_refl);
      change as_i32 with sg; rewrite Z.shiftr_div_pow2, wrap32_word by lia; change (2 ^ 32) with M32; ring.
Qed.

(** *** Quotient *)
Lemma sra_pos : iop i = SRA -> 0 < f2.
Proof.
  intros O. rewrite unsigned2 by (rewrite O; reflexivity). destruct (sh_amount ltac:(rewrite O; reflexivity)) as (-> & _ & K). apply Z.pow_pos_nonneg; lia.
Qed.
Lemma not_special : ~ (f1 = -31 /\ f2 = -1).
Proof.
  intros [E1 E2]. destruct (op2_signed (iop i)) eqn:S.
  - apply (sf_special _ _ _ F S). rewrite <- signed2 by auto. rewrite <- signed1; auto. destruct (iop i); try discriminate S; reflexivity.
  - rewrite unsigned2 in E2 by auto. pose proof u_op2. unfold u32 in *. lia.
Qed.
Lemma quot_facts : let q := c_quotient_value r in let qs := c_quotient_sign r in let skip := c_skip_quotient_sign r in
  let rm := c_remainder_value r in let rs := c_remainder_sign r in let slack := c_remainder_slack r in
  let qf := q - qs * 2 ^ 32 in let rf := rm - rs * 2 ^ 32 in let sra := b2z (bool_decide (iop i = SRA)) in
  u32 q /\ bit qs /\ bit skip /\ u32 rm /\ bit rs /\ u32 slack /\
  all_zero [Z.abs f2 * (bit_to_sign qs * qf) + (1 - sra) * (bit_to_sign rs * rf) + sra * (bit_to_sign (b2z (f1 <? 0)) * rf) - Z.abs f1;
   is_binary rs; is_binary (b2z (f1 <? 0));
   (1 - sra) * rm * (b2z (f1 <? 0) - rs);
   sra * rs;
   (1 - skip) * (bit_to_sign qs - bit_to_sign (b2z (f1 <? 0)) * bit_to_sign (b2z (f2 <? 0)));
   skip * f2 * (q + qf);
   (1 - skip) * (f2 * qf + rf - f1);
   Z.abs f2 * (bit_to_sign rs * rf + 1 + slack - Z.abs f2);
   (1 - op2 a * finv (op2 a)) * (q - 4294967295);
   (1 - op2 a * finv (op2 a)) * (rm - op1 a)].
Proof.
  cbv zeta. pose proof (gen_div_ok f1 f2 (proj1 F1) (proj1 F2) i s2 (op1 a) (op2 a) (sf_u1 _ _ _ F) u_op2 (proj1 (proj2 F1)) (proj1 (proj2 F2)) sra_pos not_special) as G.
  rewrite gr_div in G. cbv beta iota zeta in G. exact G.
Qed.
Lemma quot_val : c_quotient_value r = (if f2 =? 0 then 4294967295 else wrap32 (match iop i with SRA => f1 / f2 | _ => Z.quot f1 f2 end)) /\
  c_remainder_value r = (if f2 =? 0 then op1 a else wrap32 (f1 - (match iop i with SRA => f1 / f2 | _ => Z.quot f1 f2 end) * f2)).
Proof.
  pose proof gr_div as G. unfold gen_div in G. cbv zeta in G. destruct (f2 =? 0); injection G as G1 _ _ G2 _ _; rewrite <- G1, <- G2; auto.
Qed.
Lemma wrap32_id x : u32 x -> wrap32 x = x.
Proof. unfold wrap32, u32. intros. apply Z.mod_small. lia. Qed.
Lemma g_div : all_zero (div_constraints r).
Proof.
  unfold div_constraints, quotient_abs, remainder_abs, quotient_full_range, remainder_full_range.
  rewrite fr1, fr2, gr_a1, gr_a2, gr_sb1, gr_sb2, gr_op1, gr_op2, gr_inv, gr_dst.
  destruct quot_facts as (Uq & Bq & Bk & Ur & Br & Us & G). cbv zeta in *.
  assert (SR : c_op r o_sra = b2z (bool_decide (iop i = SRA))) by (ops; destruct (iop i); reflexivity). rewrite SR.
  unfold all_zero in G. repeat (let H := fresh "Z" in pose proof (Forall_inv G) as H; apply Forall_inv_tail in G).
  pose proof (sf_u1 _ _ _ F) as U1. pose proof u_op2 as U2.
  zeros; auto.
  - destruct quot_val as [-> _]. apply fz0.
    assert (SRv : forall o, o <> SRA -> iop i = o -> b2z (bool_decide (iop i = SRA)) = 0) by (intros o No ->; rewrite bool_decide_false; auto).
    pose proof signed1 as Sg1. pose proof signed2 as Sg2. pose proof unsigned1 as Un1. pose proof unsigned2 as Un2. pose proof op2_alu as AL.
    pose proof sh_amount as SH. pose proof (sf_alu _ _ _ F) as SA. pose proof nov as NV. ops.
    destruct (iop i) eqn:O; try reflexivity.
    + (* SRL *) destruct (SH eq_refl) as (E & _ & K). specialize (NV eq_refl eq_refl). rewrite (SA _ eq_refl), NV, (Un1 eq_refl), (Un2 eq_refl), E.
      rewrite ExecProofs.land31, Z.shiftr_div_pow2 by lia. set (p := 2 ^ _). assert (0 < p) by (apply Z.pow_pos_nonneg; lia).
      destruct (Z.eqb_spec p 0); [lia|]. rewrite Z.quot_div_nonneg by (unfold u32 in *; lia). rewrite wrap32_id; [ring|].
      unfold u32 in *. split; [apply Z.div_pos; lia|apply Z.div_lt_upper_bound; nia].
    + (* SRA *) destruct (SH eq_refl) as (E & _ & K). specialize (NV eq_refl eq_refl). rewrite (SA _ eq_refl), NV, (Sg1 eq_refl), (Un2 eq_refl), E.
      rewrite ExecProofs.land31, Z.shiftr_div_pow2 by lia. set (p := 2 ^ _). assert (0 < p) by (apply Z.pow_pos_nonneg; lia).
      destruct (Z.eqb_spec p 0); [lia|]. change as_i32 with sg. ring.
    + rewrite (AL _ eq_refl eq_refl), (Sg1 eq_refl), (Sg2 eq_refl). unfold div. change as_i32 with sg. ring.
    + rewrite (AL _ eq_refl eq_refl), (Un1 eq_refl), (Un2 eq_refl). unfold divu. destruct (Z.eqb_spec (op2 a) 0); [ring|].
      rewrite Z.quot_div_nonneg by (unfold u32 in *; lia). rewrite wrap32_id; [ring|].
      unfold u32 in *. split; [apply Z.div_pos; lia|apply Z.div_lt_upper_bound; nia].
  - destruct quot_val as [_ ->]. apply fz0.
    pose proof signed1 as Sg1. pose proof signed2 as Sg2. pose proof unsigned1 as Un1. pose proof unsigned2 as Un2. pose proof op2_alu as AL. ops.
    destruct (iop i) eqn:O; try reflexivity.
    + rewrite (AL _ eq_refl eq_refl), (Sg1 eq_refl), (Sg2 eq_refl). unfold rem. change as_i32 with sg. destruct (Z.eqb_spec (sg (op2 a)) 0) as [ZZ|ZZ].
      * rewrite wrap32_word, word_sg by auto. ring.
      * pose proof (Z.quot_rem' (sg (op1 a)) (sg (op2 a))) as QR.
        replace (sg (op1 a) - Z.quot (sg (op1 a)) (sg (op2 a)) * sg (op2 a)) with (Z.rem (sg (op1 a)) (sg (op2 a))) by lia.
        destruct (Z.eqb_spec (sg (op1 a)) (-2147483648)) as [Ea|]; cbn [andb]; [|ring].
        destruct (Z.eqb_spec (sg (op2 a)) (-1)) as [Eb|]; [|ring]. rewrite Ea, Eb. reflexivity.
    + rewrite (AL _ eq_refl eq_refl), (Un1 eq_refl), (Un2 eq_refl). unfold remu. destruct (Z.eqb_spec (op2 a) 0); [ring|].
      rewrite Z.quot_div_nonneg by (unfold u32 in *; lia). pose proof (Z.mod_eq (op1 a) (op2 a) ltac:(auto)) as ME.
      replace (op1 a - op1 a / op2 a * op2 a) with (op1 a mod op2 a) by lia. rewrite wrap32_id; [ring|].
      unfold u32 in *. pose proof (Z.mod_pos_bound (op1 a) (op2 a)). lia.
Qed.

(** *** Jumps and environment calls *)
Lemma g_jalr : all_zero (jalr_constraints r).
Proof.
  unfold jalr_constraints. cbv zeta. rewrite gr_dst, gr_pc. ops. pose proof (sf_branch _ _ _ F) as B. pose proof (sf_pc _ _ _ F) as U.
  zeros. destruct (iop i); try reflexivity. destruct B as [-> _]. apply fz0. sel. unfold wadd, wrap32, u32 in *. set (x := pc s + 4).
  assert (x mod 4294967296 = x \/ x mod 4294967296 = x - 4294967296) as [->| ->] by (unfold x; lia); change (2 ^ 32) with 4294967296; ring.
Qed.
Lemma g_trans : all_zero (cpu_transition r).
Proof.
  unfold cpu_transition, pc_ticks_up, jalr_transition, is_straightline, is_running, is_jumping. cbn [app]. cbv zeta.
  rewrite gr_npc, gr_pc, gr_op1, gr_op2. ops. pose proof (sf_branch _ _ _ F) as B. pose proof (sf_u1 _ _ _ F) as U1. pose proof u_op2 as U2.
  zeros.
  - destruct (iop i); try reflexivity; rewrite B; apply fz0; lia.
  - destruct (iop i); try reflexivity. destruct B as [_ ->]. apply fz0. sel. unfold wadd, wrap32, u32 in *. set (x := op1 a + op2 a) in *.
    assert (x mod 4294967296 = x \/ x mod 4294967296 = x - 4294967296) as [->| ->] by (unfold x; lia); change (2 ^ 32) with 4294967296; ring.
Qed.
Lemma g_ecall : all_zero (ecall_constraints r) /\ (forall e, bit (c_ecall r e)).
Proof.
  unfold ecall_constraints. rewrite gr_ecall, gr_op1. ops. cbn [map all_esel app]. destruct (decide (iop i = ECALL)) as [O|O].
  - destruct (sf_ecall _ _ _ F O) as [-> K]. unfold gen_ecall. rewrite O.
    destruct K as [(-> & -> & ->)|[(-> & (x & ->) & ->)|(e & RC & -> & -> & _)]].
    + split; [zeros; reflexivity|intros []; first [left; reflexivity|right; reflexivity]].
    + split; [zeros; reflexivity|intros []; first [left; reflexivity|right; reflexivity]].
    + set (n := reg s REG_A0) in *. clearbody n. unfold read_call in RC.
      repeat match type of RC with (if ?b then _ else _) = _ => let E := fresh in destruct b eqn:E; [apply Z.eqb_eq in E; rewrite E; injection RC as RC|] end;
        try discriminate RC; rewrite <- RC; (split; [zeros; reflexivity|intros []; first [left; reflexivity|right; reflexivity]]).
  - unfold gen_ecall. destruct (sf_dev _ _ _ F O) as [-> ->].
    destruct (iop i); try congruence; (split; [zeros; reflexivity|intros []; first [left; reflexivity|right; reflexivity]]).
Qed.
Lemma g_always : all_zero (cpu_always r).
Proof.
  unfold cpu_always, all_zero.
  apply Forall_app; split; [exact g_binary|].
  apply Forall_app; split; [exact g_op2|].
  apply Forall_app; split; [apply List.Forall_cons; [exact g_add|apply Forall_nil]|].
  apply Forall_app; split; [exact g_sub|].
  apply Forall_app; split; [exact g_bitwise|].
  apply Forall_app; split; [exact g_compare|].
  apply Forall_app; split; [exact g_branch|].
  apply Forall_app; split; [exact g_memory|].
  apply Forall_app; split; [exact g_signed|].
  apply Forall_app; split; [exact g_slt|].
  apply Forall_app; split; [exact g_shift|].
  apply Forall_app; split; [exact g_div|].
  apply Forall_app; split; [exact g_mul|].
  apply Forall_app; split; [exact g_jalr|].
  exact (proj1 g_ecall).
Qed.

(** *** Lookups *)
Lemma b2z_nz b : ~ fzero (b2z b) -> b = true. Proof. destruct b; auto. intros N. exfalso. apply N. reflexivity. Qed.
Lemma u32_mod x : u32 x -> u32 (x mod P).
Proof. intros U. rewrite Z.mod_small; auto. unfold u32, P in *. lia. Qed.
Lemma sg_off v : u32 v -> u32 (sg v + 2147483648).
Proof. intros U. pose proof (sg_range v U). unfold u32. lia. Qed.
Lemma g_rc : Forall (fun '(v, f) => ~ fzero f -> u32 (v mod P)) (rangecheck_looking r).
Proof.
  unfold rangecheck_looking. cbv zeta. destruct quot_facts as (Uq & _ & _ & Ur & _ & Us & _). destruct prod_facts as (Uh & Ul & _). cbv zeta in *.
  pose proof (sf_dst _ _ _ F) as Ud. pose proof (sf_pc _ _ _ F) as Up. pose proof (sf_u1 _ _ _ F) as U1. pose proof u_op2 as U2.
  repeat apply List.Forall_cons; try apply Forall_nil; intros N; try (apply u32_mod; assumption).
  - rewrite gr_dst. apply u32_mod; auto.
  - rewrite gr_pc. apply u32_mod; auto.
  - rewrite gr_ad. apply u32_mod. revert N. ops. pose proof F1 as (_ & _ & N1 & Y1). pose proof F2 as (_ & _ & N2 & Y2). unfold d_s1, d_s2 in *.
    destruct (iop i); intros N; try (exfalso; apply N; reflexivity); cbn [op1_signed op2_signed] in *;
      try (destruct (Y1 eq_refl) as [_ B1]; destruct (Y2 eq_refl) as [_ B2]; unfold u32; lia);
      rewrite (N1 eq_refl), (N2 eq_refl); unfold u32 in *; lia.
  - pose proof fr1 as E. unfold op1_full_range in E. rewrite E. rewrite gr_s1 in *. apply b2z_nz in N. rewrite N. cbn [b2z]. rewrite signed1 by exact N.
    rewrite Z.mul_1_l. apply u32_mod, sg_off; auto.
  - pose proof fr2 as E. unfold op2_full_range in E. rewrite E. rewrite gr_s2 in *. apply b2z_nz in N. rewrite N. cbn [b2z]. rewrite signed2 by exact N.
    rewrite Z.mul_1_l. apply u32_mod, sg_off; auto.
  - rewrite gr_dst, gr_dsb. apply u32_mod. unfold gen_dst_sign. pose proof (sf_mem _ _ _ F) as M. revert N. ops.
    destruct (iop i) eqn:O; intros N; try (exfalso; apply N; reflexivity); destruct (M eq_refl) as (m & _ & _ & U & K).
    + rewrite K. unfold as_i8, wrap32, u8, u32 in *. destruct (Z.ltb_spec (m mod 256) 128);
        match goal with |- context [128 <=? ?x] => destruct (Z.leb_spec 128 x) end; cbn [b2z]; lia.
    + rewrite K. unfold u8, u32 in *. lia.
  - rewrite gr_dst, gr_dsb. apply u32_mod. unfold gen_dst_sign. pose proof (sf_mem _ _ _ F) as M. revert N. ops.
    destruct (iop i) eqn:O; intros N; try (exfalso; apply N; reflexivity); destruct (M eq_refl) as (m & _ & _ & U & K).
    + rewrite K. unfold as_i16, wrap32, u32 in *. destruct (Z.ltb_spec (m mod 65536) 32768);
        match goal with |- context [32768 <=? ?x] => destruct (Z.leb_spec 32768 x) end; cbn [b2z]; lia.
    + rewrite K. unfold u32 in *. lia.
Qed.
Lemma g_canon : Forall canon (cpu_columns r).
Proof.
  assert (C2 : forall b, canon (b2z b)) by (intros []; unfold canon, P; cbn; lia).
  assert (CM : forall x, canon (x mod P)) by (intros; apply Z.mod_pos_bound; unfold P; lia).
  assert (CI : forall x, canon (finv x)) by (intros; apply CM).
  assert (CB : forall x, bit x -> canon x) by (intros x [-> | ->]; unfold canon, P; lia).
  destruct quot_facts as (Uq & Bq & Bk & Ur & Br & Us & _). destruct prod_facts as (Uh & Ul & Bp & _ & Ci & _). cbv zeta in *.
  destruct u_xor as [Ua Ub]. destruct (sf_regs _ _ _ F) as (R0 & R1 & R2). pose proof F1 as (A1 & _). pose proof F2 as (A2 & _).
  pose proof (sf_uraw _ _ _ F) as Uraw. pose proof (sf_imm _ _ _ F) as Uim.
  unfold cpu_columns. apply Forall_app; split; [|apply Forall_app; split; [|apply Forall_app; split; [|apply Forall_forall; intros ? I; apply in_map_iff in I as (e & <- & _); apply CB, g_ecall]]].
  - repeat apply List.Forall_cons; try apply Forall_nil.
    + rewrite gr_clk. apply CM.
    + rewrite gr_npc. apply u32_canon, (sf_npc _ _ _ F).
    + change (canon (c_pc r)). rewrite gr_pc. apply u32_canon, (sf_pc _ _ _ F).
  - rewrite gr_op. destruct (iop i); repeat constructor; discriminate.
  - rewrite gr_inst, gr_op1, gr_op2, gr_raw, gr_ovf, gr_dst, gr_dsb, gr_mraw, gr_sb1, gr_sb2, gr_ad, gr_cdi, gr_lt, gr_nd, gr_xo, gr_bsa, gr_bsm, gr_inv,
      gr_a1, gr_a2, gr_sps, gr_maddr, gr_ioa, gr_ios.
    unfold inst_cols. cbn [i_op1_signed i_op2_signed i_dst_signed i_rs1 i_rs2 i_rd i_imm].
    pose proof (sf_dst _ _ _ F). pose proof (sf_u1 _ _ _ F). pose proof u_op2 as U2.
    assert (MV : u32 match amem a with Some m => me_raw_value m | None => 0 end /\ u32 match amem a with Some m => me_addr m | None => 0 end).
    { destruct (is_mem (iop i)) eqn:M; [destruct (sf_mem _ _ _ F M) as (m & -> & ? & _); auto|].
      rewrite (sf_nomem _ _ _ F M). unfold u32; lia. }
    assert (SV : u32 match storage_device_entry a with Some e => sd_addr e | None => 0 end /\ u32 match storage_device_entry a with Some e => Z.of_nat (length (sd_data e)) | None => 0 end).
    { destruct (decide (iop i = ECALL)) as [O|O]; [|destruct (sf_dev _ _ _ F O) as [_ ->]; unfold u32; lia].
      destruct (sf_ecall _ _ _ F O) as [_ K]. destruct K as [(_ & _ & ->)|[(_ & _ & ->)|(e & _ & _ & -> & ? & ?)]]; [unfold u32; lia|unfold u32; lia|auto]. }
    repeat apply List.Forall_cons; try apply Forall_nil; try apply C2; try apply CI; try (apply CB; assumption); try (apply u32_canon; assumption); try (apply u32_canon; tauto).
    + unfold u32, canon, P in *. lia.
    + unfold gen_dst_sign. destruct (iop i); try apply C2; unfold canon, P; lia.
    + unfold canon, P. lia.
    + apply u32_canon. apply TableProofs.lxor_u32; auto.
    + unfold gen_shift_amount. destruct (Z.eqb_spec (op2 a) 0); [unfold canon, P; lia|].
      pose proof (Z.log2_nonneg (op2 a)). assert (Z.log2 (op2 a) < 32) by (apply Z.log2_lt_pow2; unfold u32 in *; lia). unfold canon, P. lia.
    + unfold canon, P. lia.
    + unfold canon, P. lia.
    + exact Ci.
Qed.
Theorem gen_row_ok : cpu_row_ok r /\ all_zero (cpu_transition r).
Proof.
  split; [|exact g_trans]. apply row_ok_intro.
  - exact g_canon.
  - exact g_always.
  - exact g_rc.
  - intros _. destruct u_xor. split; auto. split; auto. apply gr_xo.
  - unfold ops_that_shift. ops. intros N. assert (S : is_sh (iop i) = true) by (destruct (iop i); auto; exfalso; apply N; reflexivity).
    destruct (sh_amount S) as (E & K & B). rewrite K, gr_bsm, E. split; [lia|reflexivity].
Qed.
End Gen.

Section Facts.
Variable permute : list Z -> list Z.
Variable utf8_ok : list Z -> bool.
Notation exec1 := (execute_instruction permute utf8_ok).

Lemma land_even x : 0 <= x < 4294967296 -> x mod 2 = 0 -> Z.land x 4294967294 = x.
Proof.
  intros B E. apply Z.bits_inj'. intros n Hn. rewrite Z.land_spec. destruct (Z.ltb_spec n 32) as [L|L].
  - destruct (Z.eq_dec n 0) as [->|N0].
    + rewrite Z.bit0_odd, Zodd_mod, E. reflexivity.
    + assert (T : Z.testbit 4294967294 n = true).
      { change 4294967294 with (Z.ones 31 * 2 ^ 1). rewrite <- Z.shiftl_mul_pow2 by lia. rewrite Z.shiftl_spec by lia. apply Z.ones_spec_low. lia. }
      rewrite T. apply andb_true_r.
  - replace (Z.testbit x n) with false; [reflexivity|]. symmetry. destruct (Z.eq_dec x 0) as [->|]; [apply Z.bits_0|].
    apply Z.bits_above_log2; [lia|]. apply Z.log2_lt_pow2; [lia|]. apply Z.lt_le_trans with (2 ^ 32); [lia|]. apply Z.pow_le_mono_r; lia.
Qed.
Lemma land_mask x k : 0 <= k -> 0 <= x -> Z.land x (Z.ones k) = x mod 2 ^ k.
Proof. intros. apply Z.land_ones. auto. Qed.

Local Ltac kinds := match goal with rv : rv32 |- _ => destruct rv end;
  repeat match goal with x : alu |- _ => destruct x | x : alui |- _ => destruct x | x : shifti |- _ => destruct x | x : width |- _ => destruct x | x : cond |- _ => destruct x | x : bool |- _ => destruct x end.
Local Ltac bytes := repeat match goal with BR8 : forall x, u8 _ |- context [load_u8 ?s ?x] =>
  generalize (BR8 x); generalize (load_u8 s x) end; clear; unfold u8, u32; intros.
Lemma step_facts_intro s p a i s' rv : state_ok s -> program_ok p -> exec1 s p = Ok (a, i, s') ->
  i = lower (pc s) rv -> rv_ok rv -> handled_elsewhere s i = false -> provable_step s i -> step_facts s i a.
Proof.
  intros OK PO E L RV H (PS1 & PS2 & PS3 & PS4).
  destruct (exec_facts _ _ _ _ _ _ _ OK PO E) as (IO & O1 & RAW & O2 & a0 & s0 & D & DV & NP & AM & PO2 & SD).
  pose proof IO as (R0 & R1 & R2 & RI).
  pose proof (reg_u32 s _ OK R1) as U1. pose proof (reg_u32 s _ OK R2) as U2.
  assert (NOV : is_br (iop i) = false -> is_mem (iop i) = false -> reg s (rs2 (iargs i)) + imm (iargs i) < 2 ^ 32).
  { intros B M. assert (Z : rs2 (iargs i) = 0 \/ imm (iargs i) = 0).
    { rewrite L in *. kinds; cbn in *; auto; discriminate. }
    destruct Z as [Z|Z]; rewrite Z; [rewrite reg_0 by auto|]; unfold u32 in *; lia. }
  assert (PC4 : iop i <> JALR -> iop i <> ECALL -> wadd (pc s) 4 = pc s + 4).
  { intros J K. specialize (PS4 J K). pose proof (ok_pc s OK). unfold wadd, wrap32, u32 in *. apply Z.mod_small. lia. }
  assert (JR : iop i = JALR -> rs2 (iargs i) = 0).
  { intros J. rewrite L in *. kinds; cbn in *; try discriminate; auto. }
  assert (EC : iop i = ECALL -> rs1 (iargs i) = REG_A0).
  { intros J. rewrite L in *. kinds; cbn in *; try discriminate; auto. }
  assert (EA : forall f, alu_fun (iop i) = Some f -> register_op s (iargs i) f = Ok (a0, s0)).
  { intros f Ef. unfold dispatch in D. destruct (iop i); try discriminate Ef; injection Ef as <-; exact D. }
  assert (BR8 : forall x, u8 (load_u8 s x)) by (intros; apply load_u8_u8; auto).
  constructor; rewrite ?O1, ?RAW, ?O2, ?DV, ?NP, ?AM, ?PO2, ?SD; auto.
  - unfold is_reg, u32 in *. lia.
  - (* u32 dst *)
    destruct (alu_fun (iop i)) as [f|] eqn:Ef.
    + destruct (disp_reg s i f a0 s0 OK IO (EA f eq_refl)) as (-> & _). apply (alu_fun_u32 (iop i)); auto. apply wrap32_u32.
    + unfold dispatch in D. destruct (iop i) eqn:O; try discriminate Ef.
      * apply disp_load in D as (-> & _); auto. apply wrap32_u32.
      * apply disp_load in D as (-> & _); auto. apply wrap32_u32.
      * apply disp_load in D as (-> & _); auto. cbn [snd lw map addr_range seq nth]. unfold lw, from_le_bytes32. cbn [snd map addr_range seq nth].
        bytes; lia.
      * apply disp_load in D as (-> & _); auto. unfold lbu, lbu_raw. cbn [snd map addr_range seq nth].
        bytes; lia.
      * apply disp_load in D as (-> & _); auto. unfold lhu, lhu_raw. cbn [snd map addr_range seq nth].
        bytes; lia.
      * apply disp_store in D as (_ & -> & _); auto. apply land_u32; auto. vm_compute. split; [discriminate|reflexivity].
      * apply disp_store in D as (_ & -> & _); auto. apply land_u32; auto. vm_compute. split; [discriminate|reflexivity].
      * apply disp_store in D as (_ & -> & _); auto. apply land_u32; auto. vm_compute. split; [discriminate|reflexivity].
      * apply disp_branch in D as (_ & -> & _); auto. unfold u32. lia.
      * apply disp_branch in D as (_ & -> & _); auto. unfold u32. lia.
      * apply disp_branch in D as (_ & -> & _); auto. unfold u32. lia.
      * apply disp_branch in D as (_ & -> & _); auto. unfold u32. lia.
      * apply disp_branch in D as (_ & -> & _); auto. unfold u32. lia.
      * apply disp_branch in D as (_ & -> & _); auto. unfold u32. lia.
      * apply disp_jalr in D as (_ & -> & _); auto. apply wrap32_u32.
      * apply (disp_ecall permute utf8_ok) in D as (_ & ? & _); auto.
  - apply OK.
  - (* u32 npc *)
    destruct (alu_fun (iop i)) as [f|] eqn:Ef.
    + destruct (disp_reg s i f a0 s0 OK IO (EA f eq_refl)) as (_ & -> & _). apply wrap32_u32.
    + unfold dispatch in D. destruct (iop i) eqn:O; try discriminate Ef;
        try (apply disp_load in D as (_ & -> & _); auto; apply wrap32_u32);
        try (apply disp_store in D as (-> & _); auto; apply wrap32_u32);
        try (apply disp_branch in D as (-> & _); auto; match goal with |- u32 (if ?b then _ else _) => destruct b; [exact RI|apply wrap32_u32] end).
      * apply disp_jalr in D as (-> & _); auto. apply land_u32; [apply wrap32_u32|unfold u32; lia].
      * apply (disp_ecall permute utf8_ok) in D as (_ & _ & ? & _); auto.
  - intros f Ef. destruct (disp_reg s i f a0 s0 OK IO (EA f Ef)) as (-> & _). reflexivity.
  - intros M. destruct (alu_fun (iop i)) as [f|] eqn:Ef.
    + destruct (disp_reg s i f a0 s0 OK IO (EA f eq_refl)) as (_ & _ & -> & _). reflexivity.
    + unfold dispatch in D. destruct (iop i) eqn:O; try discriminate Ef; try discriminate M;
        try (apply disp_branch in D as (_ & _ & -> & _); auto).
      * apply disp_jalr in D as (_ & _ & -> & _); auto.
      * apply (disp_ecall permute utf8_ok) in D as (-> & _); auto.
  - intros M. unfold op2_of. unfold dispatch in D. destruct (iop i) eqn:O; try discriminate M.
    + apply disp_load in D as (-> & _ & -> & _); auto. eexists. split; [reflexivity|]. unfold lb, lbu_raw. cbn [snd fst map addr_range seq nth].
      split; [bytes; lia|]. split; [bytes; lia|reflexivity].
    + apply disp_load in D as (-> & _ & -> & _); auto. eexists. split; [reflexivity|]. unfold lh, lhu_raw. cbn [snd fst map addr_range seq nth].
      split; [bytes; lia|]. split; [bytes; lia|reflexivity].
    + apply disp_load in D as (_ & _ & -> & _); auto. eexists. split; [reflexivity|]. unfold lw, from_le_bytes32. cbn [snd fst map addr_range seq nth].
      split; [bytes; lia|auto].
    + apply disp_load in D as (-> & _ & -> & _); auto. eexists. split; [reflexivity|]. unfold lbu, lbu_raw. cbn [snd fst map addr_range seq nth].
      split; [bytes; lia|]. split; [bytes; lia|reflexivity].
    + apply disp_load in D as (-> & _ & -> & _); auto. eexists. split; [reflexivity|]. unfold lhu, lhu_raw. cbn [snd fst map addr_range seq nth].
      split; [bytes; lia|]. split; [bytes; lia|reflexivity].
    + apply disp_store in D as (_ & _ & -> & _); auto. eexists. split; [reflexivity|]. split; [apply land_u32; auto; vm_compute; split; [discriminate|reflexivity]|reflexivity].
    + apply disp_store in D as (_ & _ & -> & _); auto. eexists. split; [reflexivity|]. split; [apply land_u32; auto; vm_compute; split; [discriminate|reflexivity]|reflexivity].
    + apply disp_store in D as (_ & _ & -> & _); auto. eexists. split; [reflexivity|]. split; [apply land_u32; auto; vm_compute; split; [discriminate|reflexivity]|auto].
  - destruct (alu_fun (iop i)) as [f|] eqn:Ef.
    + destruct (disp_reg s i f a0 s0 OK IO (EA f eq_refl)) as (_ & -> & _). destruct (iop i); try discriminate Ef; apply PC4; discriminate.
    + unfold dispatch in D. unfold op2_of. destruct (iop i) eqn:O; try discriminate Ef;
        try (apply disp_load in D as (_ & -> & _); auto; apply PC4; discriminate);
        try (apply disp_store in D as (-> & _); auto; apply PC4; discriminate);
        try (apply disp_branch in D as (-> & _); auto; rewrite PC4 by discriminate).
      * reflexivity.
      * destruct (_ =? _); reflexivity.
      * reflexivity.
      * change as_i32 with sg. rewrite Z.leb_antisym. destruct (_ <? _); reflexivity.
      * reflexivity.
      * rewrite Z.leb_antisym. destruct (_ <? _); reflexivity.
      * apply disp_jalr in D as (-> & -> & _); auto. split; auto. rewrite (JR eq_refl), reg_0 by auto. rewrite wadd_0_l by auto.
        apply land_even; [apply wrap32_u32|]. specialize (PS2 eq_refl). unfold wadd, wrap32. lia.
      * exact I.
  - intros NE. destruct (alu_fun (iop i)) as [f|] eqn:Ef.
    + destruct (disp_reg s i f a0 s0 OK IO (EA f eq_refl)) as (_ & _ & _ & K). exact K.
    + unfold dispatch in D. destruct (iop i) eqn:O; try discriminate Ef; try congruence;
        try (apply disp_load in D as (_ & _ & _ & K); auto; exact K);
        try (apply disp_store in D as (_ & _ & _ & K); auto; exact K);
        try (apply disp_branch in D as (_ & _ & _ & K); auto; exact K).
      apply disp_jalr in D as (_ & _ & _ & K); auto.
  - intros O. split; [rewrite EC; auto|]. unfold dispatch in D. rewrite O in D. apply (disp_ecall permute utf8_ok) in D as (_ & _ & _ & K); auto.
  - intros S [K1 K2]. apply PS1; auto. split; auto. revert K2. unfold op2_of. destruct (iop i); try discriminate S; auto.
  - intros O. unfold handled_elsewhere in H. rewrite O in H. discriminate.
Qed.

Theorem honest_row_ok s p a i s' rv : state_ok s -> program_ok p -> exec1 s p = Ok (a, i, s') ->
  i = lower (pc s) rv -> rv_ok rv -> handled_elsewhere s i = false -> provable_step s i ->
  cpu_row_ok (gen_row s i a) /\ all_zero (cpu_transition (gen_row s i a)).
Proof. intros. apply gen_row_ok. eapply step_facts_intro; eauto. Qed.
End Facts.
