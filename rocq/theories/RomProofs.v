(** The program ROM: which instruction columns a packed instruction word determines, and which it does not. *)
From Verif Require Import StateSpec TableProofs CpuArith CpuProofs CpuSound CpuWitness CpuTrace StateProofs RunSpec.
Import RvSpec.
Open Scope Z_scope.
Ltac Zify.zify_post_hook ::= Z.div_mod_to_equations.

(** an instruction the decoder can produce (C01, C02): registers below 32, 32-bit immediate *)
Definition inst_fields_ok (i : instruction) : Prop :=
  0 <= rs1 (iargs i) < 32 /\ 0 <= rs2 (iargs i) < 32 /\ 0 <= rd (iargs i) < 32 /\ u32 (imm (iargs i)).
Lemma ops_code a i : ascending_sum (map (i_ops (inst_cols a i)) all_osel) = Z.of_nat (default 0%nat (list_find (fun s => s = sel_of (iop i)) all_osel ≫= fun x => Some (fst x))).
Proof. destruct i as [[] ar]; vm_compute; reflexivity. Qed.
Lemma pack7 a b c d e f g a' b' c' d' e' f' g' : 0 <= a < 32 -> 0 <= b < 32 -> 0 <= c < 32 -> 0 <= d < 32 -> 0 <= e < 32 -> 0 <= f < 32 -> u32 g ->
  0 <= a' < 32 -> 0 <= b' < 32 -> 0 <= c' < 32 -> 0 <= d' < 32 -> 0 <= e' < 32 -> 0 <= f' < 32 -> u32 g' ->
  feq (reduce_with_powers [a; b; c; d; e; f; g] (2 ^ 5)) (reduce_with_powers [a'; b'; c'; d'; e'; f'; g'] (2 ^ 5)) ->
  a = a' /\ b = b' /\ c = c' /\ d = d' /\ e = e' /\ f = f' /\ g = g'.
Proof.
  intros. unfold feq, reduce_with_powers, u32 in *. cbn [fold_right] in *. change (2 ^ 5) with 32 in *.
  rewrite !Z.mod_small in H13 by (unfold P; lia). lia.
Qed.
Lemma inst_data_inj a i a' j : inst_fields_ok i -> inst_fields_ok j -> feq (inst_data (inst_cols a i)) (inst_data (inst_cols a' j)) ->
  iargs i = iargs j /\ sel_of (iop i) = sel_of (iop j) /\ op1_signed (iop i) = op1_signed (iop j) /\ op2_signed (iop i) = op2_signed (iop j).
Proof.
  intros (A1 & A2 & A3 & A4) (B1 & B2 & B3 & B4) E. unfold inst_data in E. rewrite !ops_code in E. cbn [inst_cols i_op1_signed i_op2_signed i_rs1 i_rs2 i_rd i_imm] in E.
  assert (OB : forall o, 0 <= Z.of_nat (default 0%nat (list_find (fun s => s = sel_of o) all_osel ≫= fun x => Some (fst x))) < 32) by (intros []; vm_compute; split; congruence).
  assert (BB : forall b : bool, 0 <= b2z b < 32) by (intros []; cbn; lia).
  apply pack7 in E as (E1 & E2 & E3 & E4 & E5 & E6 & E7); auto.
  destruct i as [oi [d1 r1 r2 k]], j as [oj [d1' r1' r2' k']]. cbn in *. subst. split; [reflexivity|]. split; [|split].
  - destruct oi, oj; vm_compute in E1; try discriminate E1; reflexivity.
  - destruct (op1_signed oi), (op1_signed oj); auto; discriminate.
  - destruct (op2_signed oi), (op2_signed oj); auto; discriminate.
Qed.
Lemma same_selector o o' : sel_of o = sel_of o' -> op1_signed o = op1_signed o' -> op2_signed o = op2_signed o' -> dst_signed o = dst_signed o' -> o = o'.
Proof. destruct o, o'; cbn; try discriminate; auto. Qed.

(** ** A row that halts in place of any instruction
    [halt_cols a data]: an ECALL on x0 whose immediate is chosen so that it packs to [data]. *)
Definition inv_2_30 : Z := finv (2 ^ 30).
Definition halt_imm (data : Z) : Z := ((data - 24) * inv_2_30) mod P.
Definition halt_cols (a data : Z) : icols :=
  mkIcols a (fun s => if decide (s = o_ecall) then 1 else 0) 0 0 0 0 0 0 (halt_imm data).
Lemma halt_data a data : feq (inst_data (halt_cols a data)) data.
Proof.
  unfold inst_data. assert (E : ascending_sum (map (i_ops (halt_cols a data)) all_osel) = 24) by reflexivity. rewrite E. clear E.
  cbn [halt_cols i_op1_signed i_op2_signed i_rs1 i_rs2 i_rd i_imm]. unfold reduce_with_powers. cbn [fold_right]. unfold feq, halt_imm.
  set (x := data - 24) in *. replace data with (x + 24) by lia. clearbody x.
  replace (_ * 2 ^ 5 + 24) with (((x * inv_2_30) mod P) * 2 ^ 30 + 24) by lia.
  rewrite Zplus_mod, Zmult_mod_idemp_l, <- Z.mul_assoc, <- Zplus_mod. rewrite <- Z.add_mod_idemp_l by (unfold P; lia). rewrite Zmult_mod.
  replace (inv_2_30 * 2 ^ 30 mod P) with 1 by (vm_compute; reflexivity). rewrite Z.mul_1_r, Z.mod_mod by (unfold P; lia). rewrite Z.add_mod_idemp_l by (unfold P; lia). reflexivity.
Qed.
Definition halt_row (clk a data : Z) : cpu :=
  let v := halt_imm data in let z := 0 in
  {| c_clk := clk; c_new_pc := a; c_inst := halt_cols a data;
     c_op1_value := z; c_op2_value_raw := z; c_op2_value := v; c_op2_value_overflowing := v;
     c_dst_value := z; c_dst_sign_bit := z; c_mem_value_raw := z; c_op1_sign_bit := z; c_op2_sign_bit := z;
     c_abs_diff := v; c_cmp_diff_inv := (- finv v) mod P; c_less_than := b2z (negb (v =? 0)); c_normalised_diff := b2z (negb (v =? 0));
     c_xor_a := z; c_xor_b := z; c_xor_out := z; c_bs_amount := z; c_bs_multiplier := z;
     c_op2_value_inv := finv v; c_quotient_value := if v =? 0 then 4294967295 else 0; c_quotient_sign := z; c_skip_quotient_sign := z;
     c_remainder_value := z; c_remainder_sign := z; c_remainder_slack := (v - 1) mod P;
     c_op1_abs := z; c_op2_abs := v; c_skip_product_sign := z; c_product_sign := z;
     c_product_high := z; c_product_low := z; c_product_high_inv := finv 4294967295;
     c_mem_addr := z; c_io_addr := z; c_io_size := z; c_ecall := fun e => if decide (e = e_halt) then 1 else 0 |}.
Lemma halt_imm_canon data : canon (halt_imm data).
Proof. unfold halt_imm, canon. apply Z.mod_pos_bound. unfold P. lia. Qed.
Lemma fzero_opp x : fzero x -> fzero (- x).
Proof. intros H. replace (- x) with (x * -1) by ring. apply fzero_mul_l, H. Qed.
Ltac zero_one HP V1 V2 V3 := match goal with
  | |- fzero ?e => first [ replace e with 0 by ring; reflexivity
    | match type of HP with fzero ?h => replace e with h by ring; exact HP end
    | match type of V1 with fzero ?h => replace e with h by ring; exact V1 end
    | match type of V2 with fzero ?h => replace e with h by ring; exact V2 end ] end.
Lemma halt_always (r : cpu) (v iv ci sl a : Z) :
  c_inst r = mkIcols a (fun s => if decide (s = o_ecall) then 1 else 0) 0 0 0 0 0 0 v -> c_new_pc r = a ->
  c_op1_value r = 0 -> c_op2_value_raw r = 0 -> c_op2_value r = v -> c_op2_value_overflowing r = v ->
  c_dst_value r = 0 -> c_dst_sign_bit r = 0 -> c_mem_value_raw r = 0 -> c_op1_sign_bit r = 0 -> c_op2_sign_bit r = 0 ->
  c_abs_diff r = v -> c_cmp_diff_inv r = ci -> c_less_than r = b2z (negb (v =? 0)) -> c_normalised_diff r = b2z (negb (v =? 0)) ->
  c_xor_a r = 0 -> c_xor_b r = 0 -> c_xor_out r = 0 -> c_bs_amount r = 0 -> c_bs_multiplier r = 0 ->
  c_op2_value_inv r = iv -> c_quotient_value r = (if v =? 0 then 4294967295 else 0) -> c_quotient_sign r = 0 -> c_skip_quotient_sign r = 0 ->
  c_remainder_value r = 0 -> c_remainder_sign r = 0 -> c_remainder_slack r = sl ->
  c_op1_abs r = 0 -> c_op2_abs r = v -> c_skip_product_sign r = 0 -> c_product_sign r = 0 ->
  c_product_high r = 0 -> c_product_low r = 0 -> c_product_high_inv r = finv 4294967295 ->
  c_ecall r = (fun e => if decide (e = e_halt) then 1 else 0) ->
  (v = 0 \/ (fzero (v * iv - 1) /\ fzero (v * ci + 1) /\ fzero (1 + sl - v))) -> all_zero (cpu_always r).
Proof.
  intros H1 H2 H3 H4 H5 H6 H7 H8 H9 H10 H11 H12 H13 H14 H15 H16 H17 H18 H19 H20 H21 H22 H23 H24 H25 H26 H27 H28 H29 H30 H31 H32 H33 H34 H35 HV.
  assert (HP : fzero (1 - 4294967295 * finv 4294967295)) by (vm_compute; reflexivity).
  assert (CO : forall s, c_op r s = if decide (s = o_ecall) then 1 else 0) by (intros s; unfold c_op; rewrite H1; reflexivity).
  unfold cpu_always, binary_selectors, populate_op2_value, is_branch_operation, is_shift_operation, sub_constraints, bitwise_constraints, and_doubled, or_doubled, xor_doubled,
    comparison_constraints, branch_constraints, memory_constraints, signed_constraints, slt_constraints, shift_constraints, div_constraints, quotient_abs, remainder_abs, quotient_full_range, remainder_full_range,
    mul_constraints, jalr_constraints, ecall_constraints, signed_diff, op1_full_range, op2_full_range, bit_to_sign, is_mem_op, is_running, c_imm, c_pc, all_osel, all_esel, is_binary, sumZ.
  cbn [map app flat_map fold_left]. rewrite !CO. rewrite H1, H2, H3, H4, H5, H6, H7, H8, H9, H10, H11, H12, H13, H14, H15, H16, H17, H18, H19, H20, H21, H22, H23, H24, H25, H26, H27, H28, H29, H30, H31, H32, H33, H34, H35.
  clear - HV HP. set (fi := finv 4294967295) in *. clearbody fi. cbn [i_imm i_pc i_op1_signed i_op2_signed i_dst_signed].
  repeat match goal with |- context [decide (?x = ?y)] => let b := eval vm_compute in (bool_decide (x = y)) in
    match b with true => rewrite (decide_True (P := x = y)) by reflexivity | false => rewrite (decide_False (P := x = y)) by discriminate end end.
  cbn [ecall_number]. unfold all_zero.
  destruct HV as [->|(V1 & V2 & V3)].
  - cbn [Z.eqb negb b2z]. repeat (apply List.Forall_cons; [try zero_one HP HP HP HP|]).
    constructor.
  - destruct (Z.eqb_spec v 0) as [->|NV]; [exfalso; vm_compute in V1; discriminate|]. cbn [negb b2z].
    assert (W1 : fzero ((1 - v * iv) * (0 - 4294967295))) by (apply fzero_mul_l; replace (1 - v * iv) with (- (v * iv - 1)) by ring; apply fzero_opp; exact V1).
    assert (W2 : fzero (- (v * ci) - 1)) by (replace (- (v * ci) - 1) with (- (v * ci + 1)) by ring; apply fzero_opp; exact V2).
    assert (W3 : fzero (v * (1 + sl - v))) by (apply fzero_mul_r; exact V3).
    repeat (apply List.Forall_cons; [try first [zero_one HP W1 W2 HP | zero_one W3 W3 W3 W3]|]). constructor.
Qed.
Lemma inverse_values v f : (v * f) mod P = 1 -> fzero (v * f - 1) /\ fzero (v * ((- f) mod P) + 1) /\ fzero (1 + (v - 1) mod P - v).
Proof.
  intros I. assert (I1 : fzero (v * f - 1)) by (unfold fzero; rewrite Zminus_mod, I; reflexivity). split; [exact I1|split].
  - replace (v * ((- f) mod P) + 1) with (- (v * f - 1) + v * ((- f) mod P - - f)) by ring. apply fzero_add; [apply fzero_opp, I1|].
    apply fzero_mul_r. unfold fzero. rewrite Zminus_mod_idemp_l, Z.sub_diag. reflexivity.
  - unfold fzero. replace (1 + (v - 1) mod P - v) with ((v - 1) mod P - (v - 1)) by ring. rewrite Zminus_mod_idemp_l, Z.sub_diag. reflexivity.
Qed.
Lemma halt_values v : canon v -> v = 0 \/ (fzero (v * finv v - 1) /\ fzero (v * ((- finv v) mod P) + 1) /\ fzero (1 + (v - 1) mod P - v)).
Proof.
  intros Cv. destruct (Z.eq_dec v 0) as [|N]; [left; assumption|right]. apply inverse_values, finv_ok.
  intros Z0. apply N, fzero_small; [unfold canon in Cv; lia|exact Z0].
Qed.
Lemma halt_row_ok clk a data : canon clk -> canon a -> cpu_row_ok (halt_row clk a data).
Proof.
  intros Ck Ca. pose proof (halt_imm_canon data) as Cv. assert (C0 : forall x, canon (x mod P)) by (intros x; apply Z.mod_pos_bound; unfold P; lia).
  assert (Cf : canon (finv 4294967295)) by (vm_compute; split; congruence).
  assert (Cfv : canon (finv (halt_imm data))) by (apply C0).
  assert (CZ : canon 0) by (unfold canon, P; lia). assert (C1 : canon 1) by (unfold canon, P; lia). assert (CM : canon 4294967295) by (unfold canon, P; lia).
  apply row_ok_intro.
  - unfold cpu_columns, c_op, all_osel, all_esel, halt_row. cbn [map app c_clk c_new_pc c_inst halt_cols i_pc i_ops i_op1_signed i_op2_signed i_dst_signed i_rs1 i_rs2 i_rd i_imm
       c_op1_value c_op2_value_raw c_op2_value c_op2_value_overflowing c_dst_value c_dst_sign_bit c_mem_value_raw c_op1_sign_bit c_op2_sign_bit c_abs_diff c_cmp_diff_inv c_less_than
       c_normalised_diff c_xor_a c_xor_b c_xor_out c_bs_amount c_bs_multiplier c_op2_value_inv c_quotient_value c_quotient_sign c_skip_quotient_sign c_remainder_value c_remainder_sign
       c_remainder_slack c_op1_abs c_op2_abs c_skip_product_sign c_product_sign c_product_high c_product_low c_product_high_inv c_mem_addr c_io_addr c_io_size c_ecall].
    repeat (apply List.Forall_cons; [repeat case_decide; try congruence; try (destruct (halt_imm data =? 0)); cbn [b2z negb]; auto|]). constructor.
  - eapply (halt_always (halt_row clk a data) (halt_imm data) (finv (halt_imm data)) ((- finv (halt_imm data)) mod P) ((halt_imm data - 1) mod P) a); try reflexivity.
    apply halt_values, Cv.
  - unfold rangecheck_looking. repeat (apply List.Forall_cons; [intros N; exfalso; apply N; reflexivity|]). constructor.
  - intros N. exfalso. apply N. reflexivity.
  - intros N. exfalso. apply N. reflexivity.
Qed.
