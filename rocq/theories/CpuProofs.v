(** Soundness of the CPU constraints, row by row. *)
From Verif Require Import CircuitSpec TableProofs CpuArith.
Import RvSpec.
Open Scope Z_scope.
Ltac Zify.zify_post_hook ::= Z.div_mod_to_equations.

Ltac in_cols := unfold cpu_columns, all_osel, all_esel; cbn [map app]; repeat first [left; reflexivity | right].
Ltac inv_forall H :=
  unfold all_zero in H;
  repeat match type of H with
  | Forall _ (_ :: _) => let H1 := fresh H "c" in inversion H as [|? ? H1 H']; subst; clear H; rename H' into H
  end.

Lemma sign_core v s (b : bool) : u32 v -> bit s -> (b = true -> u32 ((v - s * 2 ^ 32 + 1 * 2 ^ 31) mod P)) -> (b = false -> s = 0) ->
  s = b2z (v - s * 2 ^ 32 <? 0) /\ v - s * 2 ^ 32 = if b then sg v else v.
Proof.
  intros V B T F. unfold u32, sg, M32 in *. change (2 ^ 32) with 4294967296 in *. change (2 ^ 31) with 2147483648 in *.
  assert (E : s = if b then b2z (2147483648 <=? v) else 0).
  { destruct b; [|auto]. specialize (T eq_refl). destruct B as [->| ->].
    - rewrite Z.mod_small in T by (unfold P; lia). destruct (Z.leb_spec 2147483648 v); cbn; lia.
    - destruct (Z.leb_spec 2147483648 v) as [L|L]; [reflexivity|]. exfalso.
      replace (v - 1 * 4294967296 + 1 * 2147483648) with (v + 2147483648 - 4294967296) in T by lia.
      rewrite <- (Z.mod_unique (v + 2147483648 - 4294967296) P (-1) (v + 2147483648 - 4294967296 + P)) in T; unfold P in *; lia. }
  destruct b.
  - destruct (Z.leb_spec 2147483648 v); cbn in E; subst s; destruct (Z.ltb_spec v 2147483648); try lia; split; try lia.
    + destruct (Z.ltb_spec (v - 1 * 4294967296) 0); cbn; lia.
    + destruct (Z.ltb_spec (v - 0 * 4294967296) 0); cbn; lia.
  - subst s. split; [|lia]. destruct (Z.ltb_spec (v - 0 * 4294967296) 0); cbn; lia.
Qed.

Section Row.
Context (r : cpu) (a : Z) (i : instruction).
Context (OK : cpu_row_ok r) (CI : c_inst r = inst_cols a i).
Context (U1 : u32 (c_op1_value r)) (U2 : u32 (c_op2_value_raw r)) (UI : u32 (imm (iargs i))).

Lemma col_canon x : In x (cpu_columns r) -> canon x.
Proof. intros I. pose proof (ro_canon _ OK) as C. rewrite Forall_forall in C. auto. Qed.

Lemma opv s : c_op r s = if decide (s = sel_of (iop i)) then 1 else 0.
Proof. unfold c_op. rewrite CI. reflexivity. Qed.
Lemma immv : c_imm r = imm (iargs i). Proof. unfold c_imm. rewrite CI. reflexivity. Qed.
Lemma pcv : c_pc r = a. Proof. unfold c_pc. rewrite CI. reflexivity. Qed.
Lemma s1v : i_op1_signed (c_inst r) = b2z (op1_signed (iop i)). Proof. rewrite CI. reflexivity. Qed.
Lemma s2v : i_op2_signed (c_inst r) = b2z (op2_signed (iop i)). Proof. rewrite CI. reflexivity. Qed.

Lemma groups : all_zero (binary_selectors r) /\ all_zero (populate_op2_value r) /\ all_zero [c_op r o_add] /\
  all_zero (sub_constraints r) /\ all_zero (bitwise_constraints r) /\ all_zero (comparison_constraints r) /\
  all_zero (branch_constraints r) /\ all_zero (memory_constraints r) /\ all_zero (signed_constraints r) /\
  all_zero (slt_constraints r) /\ all_zero (shift_constraints r) /\ all_zero (div_constraints r) /\
  all_zero (mul_constraints r) /\ all_zero (jalr_constraints r) /\ all_zero (ecall_constraints r).
Proof.
  pose proof (ro_always _ OK) as H. unfold all_zero, cpu_always in *. rewrite !Forall_app in H. tauto.
Qed.

(** range checks *)
Lemma rc_val v f : In (v, f) (rangecheck_looking r) -> ~ fzero f -> u32 (v mod P).
Proof. intros I. pose proof (ro_rc _ OK) as H. rewrite Forall_forall in H. exact (H _ I). Qed.
Lemma rc_col v f : In (v, f) (rangecheck_looking r) -> f = 1 -> canon v -> u32 v.
Proof.
  intros I -> C. assert (u32 (v mod P)) by (apply (rc_val v 1); auto; discriminate).
  unfold canon in C. rewrite Z.mod_small in H by lia. auto.
Qed.

(** operand signs *)
Lemma sign1 : c_op1_sign_bit r = b2z (op1_full_range r <? 0) /\
  op1_full_range r = (if op1_signed (iop i) then sg (c_op1_value r) else c_op1_value r) /\
  bit (c_op1_sign_bit r).
Proof.
  destruct groups as (_ & _ & _ & _ & _ & _ & _ & _ & G & _). unfold signed_constraints in G. inv_forall G.
  apply binary_canon in Gc; [|apply col_canon; in_cols]. rewrite s1v in Gc1. unfold op1_full_range.
  cut (c_op1_sign_bit r = b2z (c_op1_value r - c_op1_sign_bit r * 2 ^ 32 <? 0) /\
    c_op1_value r - c_op1_sign_bit r * 2 ^ 32 = if op1_signed (iop i) then sg (c_op1_value r) else c_op1_value r); [unfold bit; tauto|].
  apply sign_core; auto.
  - intros E. pose proof (rc_val (c_op1_value r - c_op1_sign_bit r * 2 ^ 32 + i_op1_signed (c_inst r) * 2 ^ 31)
      (i_op1_signed (c_inst r))) as X. rewrite s1v, E in X. apply X; [|discriminate].
    rewrite <- E at 2. rewrite <- s1v. replace (b2z true) with (i_op1_signed (c_inst r)) by (rewrite s1v, E; reflexivity).
    unfold rangecheck_looking; repeat first [left; reflexivity|right].
  - intros E. rewrite E in Gc1. cbn [b2z] in Gc1. rewrite Z.sub_0_r, Z.mul_1_l in Gc1. destruct Gc as [Gc|Gc]; auto. rewrite Gc in Gc1. discriminate Gc1.
Qed.
Lemma sign2 : u32 (c_op2_value r) -> c_op2_sign_bit r = b2z (op2_full_range r <? 0) /\
  op2_full_range r = (if op2_signed (iop i) then sg (c_op2_value r) else c_op2_value r) /\
  bit (c_op2_sign_bit r).
Proof.
  intros V2. destruct groups as (_ & _ & _ & _ & _ & _ & _ & _ & G & _). unfold signed_constraints in G. inv_forall G.
  apply binary_canon in Gc0; [|apply col_canon; in_cols]. rewrite s2v in Gc2. unfold op2_full_range.
  cut (c_op2_sign_bit r = b2z (c_op2_value r - c_op2_sign_bit r * 2 ^ 32 <? 0) /\
    c_op2_value r - c_op2_sign_bit r * 2 ^ 32 = if op2_signed (iop i) then sg (c_op2_value r) else c_op2_value r); [unfold bit; tauto|].
  apply sign_core; auto.
  - intros E. pose proof (rc_val (c_op2_value r - c_op2_sign_bit r * 2 ^ 32 + i_op2_signed (c_inst r) * 2 ^ 31)
      (i_op2_signed (c_inst r))) as X. rewrite s2v, E in X. apply X; [|discriminate].
    rewrite <- E at 2. rewrite <- s2v. replace (b2z true) with (i_op2_signed (c_inst r)) by (rewrite s2v, E; reflexivity).
    unfold rangecheck_looking; repeat first [left; reflexivity|right].
  - intros E. rewrite E in Gc2. cbn [b2z] in Gc2. rewrite Z.sub_0_r, Z.mul_1_l in Gc2. destruct Gc0 as [Gc0|Gc0]; auto. rewrite Gc0 in Gc2. discriminate Gc2.
Qed.

(** selectors of a row whose operation is known *)
Definition selv (o : op) (s : osel) : Z := if decide (s = sel_of o) then 1 else 0.
Lemma opf : c_op r = selv (iop i).
Proof. unfold c_op, selv. rewrite CI. reflexivity. Qed.

Lemma fz_mul1 x : fzero (1 * x) -> fzero x.
Proof. rewrite Z.mul_1_l. auto. Qed.

(** the second operand *)
Definition is_br (o : op) : bool := match o with BEQ | BNE | BLT | BLTU | BGE | BGEU => true | _ => false end.
Definition is_sh (o : op) : bool := match o with SLL | SRL | SRA => true | _ => false end.
Definition is_mem (o : op) : bool := match o with SB | SH | SW | LB | LBU | LH | LHU | LW => true | _ => false end.
Lemma br_val : is_branch_operation r = b2z (is_br (iop i)).
Proof. unfold is_branch_operation. rewrite opf. destruct (iop i); reflexivity. Qed.
Lemma sh_val : is_shift_operation r = b2z (is_sh (iop i)).
Proof. unfold is_shift_operation. rewrite opf. destruct (iop i); reflexivity. Qed.
Lemma sh_val' : ops_that_shift r = b2z (is_sh (iop i)).
Proof. unfold ops_that_shift. rewrite opf. destruct (iop i); reflexivity. Qed.
Lemma mem_val : is_mem_op r = b2z (is_mem (iop i)).
Proof. unfold is_mem_op. rewrite opf. destruct (iop i); reflexivity. Qed.
Lemma run_val : is_running r = 1.
Proof. unfold is_running. rewrite opf. destruct (iop i); reflexivity. Qed.

Lemma op2_branch : is_br (iop i) = true -> c_op2_value r = c_op2_value_raw r.
Proof.
  intros B. destruct groups as (_ & G & _). unfold populate_op2_value in G. inv_forall G.
  rewrite br_val, B in Gc. apply fz_mul1 in Gc. apply fzero_canon in Gc; auto; apply col_canon; in_cols.
Qed.
Lemma op2_plain : is_br (iop i) = false -> is_sh (iop i) = false -> is_mem (iop i) = false ->
  c_op2_value r = c_op2_value_raw r + imm (iargs i).
Proof.
  intros B S M. destruct groups as (_ & G & _). unfold populate_op2_value in G. inv_forall G.
  rewrite br_val, sh_val, B, S in Gc1, Gc2. rewrite mem_val, M in Gc2. rewrite immv in Gc1. cbn [b2z] in *.
  change (1 - 0 - 0) with 1 in *. apply fz_mul1 in Gc1. rewrite Z.mul_1_l, Z.mul_0_r, Z.sub_0_r in Gc2.
  assert (C : canon (c_op2_value r)) by (apply col_canon; in_cols).
  assert (C' : canon (c_op2_value_overflowing r)) by (apply col_canon; in_cols).
  assert (E : fzero (c_op2_value_overflowing r - c_op2_value r)) by (apply fzero_mul in Gc2; tauto).
  apply fzero_canon in E; auto. rewrite <- E. unfold canon, u32 in *.
  replace (c_op2_value_overflowing r - imm (iargs i) - c_op2_value_raw r)
    with (c_op2_value_overflowing r - (c_op2_value_raw r + imm (iargs i))) in Gc1 by lia.
  apply fzero_canon in Gc1; [lia|auto|]. unfold canon, P. lia.
Qed.
Lemma op2_mem : is_mem (iop i) = true -> u32 (c_op2_value r) ->
  c_op2_value r = word (c_op2_value_raw r + imm (iargs i)).
Proof.
  intros M W. destruct groups as (_ & G & _). unfold populate_op2_value in G. inv_forall G.
  assert (B : is_br (iop i) = false /\ is_sh (iop i) = false) by (destruct (iop i); try discriminate M; auto).
  destruct B as [B S].
  rewrite br_val, sh_val, B, S in Gc1, Gc2. rewrite mem_val, M in Gc2. rewrite immv in Gc1. cbn [b2z] in *.
  change (1 - 0 - 0) with 1 in *. apply fz_mul1 in Gc1. rewrite Z.mul_1_l, Z.mul_1_r in Gc2.
  assert (C' : canon (c_op2_value_overflowing r)) by (apply col_canon; in_cols).
  replace (c_op2_value_overflowing r - imm (iargs i) - c_op2_value_raw r)
    with (c_op2_value_overflowing r - (c_op2_value_raw r + imm (iargs i))) in Gc1 by lia.
  unfold u32, word, M32 in *. apply fzero_canon in Gc1; [|auto|unfold canon, P; lia]. rewrite Gc1 in Gc2.
  change (2 ^ 32) with 4294967296 in *.
  apply fzero_mul in Gc2 as [K|K]; apply fzero_small in K; unfold P in *; lia.
Qed.
Lemma and_half x y z : canon x -> canon y -> fzero (2 * y - 2 * x) -> z = y -> x = z.
Proof.
  intros C U H ->. replace (2 * y - 2 * x) with (2 * (y - x)) in H by lia. apply fzero_mul_nz in H; [|discriminate].
  apply fzero_canon in H; auto.
Qed.
(** shifts: the multiplier is two to the low five bits of register plus immediate *)
Lemma op2_shift : is_sh (iop i) = true -> u32 (c_op2_value_raw r + imm (iargs i)) ->
  c_op2_value r = 2 ^ ((c_op2_value_raw r + imm (iargs i)) mod 32).
Proof.
  intros S W. destruct groups as (_ & G & _ & _ & _ & _ & _ & _ & _ & _ & H & _).
  unfold populate_op2_value in G. inv_forall G. unfold shift_constraints in H. inv_forall H.
  change (c_op r o_sll + c_op r o_srl + c_op r o_sra) with (is_shift_operation r) in *.
  rewrite sh_val, S in *. rewrite immv in Hc0. cbn [b2z] in *. apply fz_mul1 in Hc, Hc0, Hc1, Gc0.
  destruct (ro_xor _ OK) as (x & Tx & Zx & Xa & Xb & Xo).
  { unfold ops_that_use_xor. rewrite opf. destruct (iop i); try discriminate S; discriminate. }
  destruct (xor_sound x Tx Zx) as (Ua & Ub & Uo & EX). rewrite Xa, Xb, Xo in *.
  destruct (ro_shift _ OK) as (t & s & T & C & M & I & Sa & Sm).
  { rewrite sh_val', S. discriminate. }
  destruct (proj1 (shift_sound t T C M) s I) as [Ra Rm]. rewrite Sa, Sm in *.
  unfold u32 in *. apply fzero_eq in Hc; [|unfold P; lia].
  replace (c_xor_b r - c_op2_value_raw r - imm (iargs i)) with (c_xor_b r - (c_op2_value_raw r + imm (iargs i))) in Hc0 by lia.
  apply fzero_eq in Hc0; [|unfold P; lia]. rewrite Hc, Hc0 in EX. unfold and_doubled in Hc1.
  rewrite Hc, Hc0, EX in Hc1. rewrite lxor_land_sum, land31 in Hc1 by lia.
  assert (E : c_bs_amount r = (c_op2_value_raw r + imm (iargs i)) mod 32).
  { eapply and_half; [apply col_canon; in_cols| |exact Hc1|reflexivity]. unfold canon, P. lia. }
  rewrite <- E, <- Rm. apply fzero_canon in Gc0; auto; apply col_canon; in_cols.
Qed.

(** absolute values *)
Lemma abs_core f v : u32 v -> Z.abs f <= 2 ^ 32 -> forall s x, s = b2z (f <? 0) -> canon x -> fzero (x - f * bit_to_sign s) -> x = Z.abs f.
Proof.
  intros U B s x -> C H. apply fzero_canon in H; auto.
  - destruct (Z.ltb_spec f 0); cbn in H; unfold bit_to_sign in H; lia.
  - unfold canon, bit_to_sign, P. destruct (Z.ltb_spec f 0); cbn; lia.
Qed.
Lemma sg_bound v : u32 v -> - 2 ^ 31 <= sg v < 2 ^ 31.
Proof. unfold u32, sg, M32. destruct (Z.ltb_spec v (2 ^ 31)); lia. Qed.
Lemma full_bound (b : bool) v : u32 v -> Z.abs (if b then sg v else v) < 2 ^ 32 /\ (b = true -> - 2 ^ 31 <= sg v < 2 ^ 31).
Proof. intros U. pose proof (sg_bound v U). unfold u32 in *. destruct b; lia. Qed.

Definition f1 : Z := if op1_signed (iop i) then sg (c_op1_value r) else c_op1_value r.
Definition f2 : Z := if op2_signed (iop i) then sg (c_op2_value r) else c_op2_value r.
Lemma f1_bound : Z.abs f1 < 2 ^ 32.
Proof. apply full_bound; auto. Qed.
Lemma abs1 : c_op1_abs r = Z.abs f1.
Proof.
  destruct groups as (_ & _ & _ & _ & _ & _ & _ & _ & _ & _ & _ & _ & G & _). unfold mul_constraints in G. inv_forall G.
  destruct sign1 as (S & F & B). fold f1 in F. rewrite F in *. pose proof f1_bound.
  eapply abs_core with (v := c_op1_value r); eauto; [lia|]. apply col_canon; in_cols.
Qed.
Lemma abs2 : u32 (c_op2_value r) -> c_op2_abs r = Z.abs f2.
Proof.
  intros V. destruct groups as (_ & _ & _ & _ & _ & _ & _ & _ & _ & _ & _ & _ & G & _). unfold mul_constraints in G. inv_forall G.
  destruct (sign2 V) as (S & F & B). fold f2 in F. rewrite F in *.
  assert (Z.abs f2 < 2 ^ 32) by (apply full_bound; auto).
  eapply abs_core with (v := c_op2_value r); eauto; [lia|]. apply col_canon; in_cols.
Qed.

(** subtraction *)
Lemma row_sub : iop i = SUB -> u32 (c_op2_value r) -> c_dst_value r = word (c_op1_value r - c_op2_value r).
Proof.
  intros EO V. destruct groups as (_ & _ & _ & G & _). unfold sub_constraints in G. inv_forall G.
  rewrite opf, EO in Gc. change (selv SUB o_sub) with 1 in Gc. apply fz_mul1 in Gc.
  assert (D : u32 (c_dst_value r)).
  { apply (rc_col _ (c_op r o_add + c_op r o_sub + c_op r o_jalr)); [unfold rangecheck_looking; do 3 right; left; reflexivity| |apply col_canon; in_cols].
    rewrite opf, EO. reflexivity. }
  unfold word, M32, u32 in *. change (2 ^ 32) with 4294967296 in *.
  apply fzero_mul in Gc as [K|K]; apply fzero_small in K; unfold P; lia.
Qed.
(** bitwise *)
Lemma row_bitwise : u32 (c_op2_value r) ->
  (iop i = AND -> c_dst_value r = Z.land (c_op1_value r) (c_op2_value r)) /\
  (iop i = OR -> c_dst_value r = Z.lor (c_op1_value r) (c_op2_value r)) /\
  (iop i = XOR -> c_dst_value r = Z.lxor (c_op1_value r) (c_op2_value r)).
Proof.
  intros V. destruct groups as (_ & _ & _ & _ & G & _). unfold bitwise_constraints in G. cbn [flat_map app] in G. inv_forall G.
  assert (X : ops_that_use_xor r = 1 -> u32 (c_xor_a r) /\ u32 (c_xor_b r) /\ u32 (c_xor_out r) /\ c_xor_out r = Z.lxor (c_xor_a r) (c_xor_b r)).
  { intros E. destruct (ro_xor _ OK) as (x & Tx & Zx & Xa & Xb & Xo); [rewrite E; discriminate|].
    rewrite <- Xa, <- Xb, <- Xo. apply xor_sound; auto. }
  assert (CD : canon (c_dst_value r)) by (apply col_canon; in_cols).
  unfold ops_that_use_xor in X. unfold and_doubled, or_doubled, xor_doubled in *. rewrite opf in *.
  repeat split; intros EO; rewrite EO in *; specialize (X eq_refl);
    repeat match goal with K : context [selv ?o ?s] |- _ => let v := eval vm_compute in (selv o s) in change (selv o s) with v in K end;
    destruct X as (Ua & Ub & Uo & EX); pose proof U1; unfold u32 in *.
  - apply fz_mul1 in Gc, Gc0, Gc1. apply fzero_eq in Gc, Gc0; try (unfold P; lia).
    rewrite EX, Gc, Gc0, lxor_land_sum in Gc1 by lia. eapply and_half; [auto| |exact Gc1|reflexivity].
    unfold canon, P. pose proof (Z.land_nonneg (c_op1_value r) (c_op2_value r)).
    pose proof (lxor_land_sum (c_op1_value r) (c_op2_value r)). pose proof (Z.lxor_nonneg (c_op1_value r) (c_op2_value r)). lia.
  - apply fz_mul1 in Gc2, Gc3, Gc4. apply fzero_eq in Gc2, Gc3; try (unfold P; lia).
    rewrite EX, Gc2, Gc3, lxor_lor_sum in Gc4 by lia. eapply and_half; [auto| |exact Gc4|reflexivity].
    unfold canon, P. rewrite EX, Gc2, Gc3 in Uo. pose proof (lxor_lor_sum (c_op1_value r) (c_op2_value r)). lia.
  - apply fz_mul1 in Gc5, Gc6, Gc7. apply fzero_eq in Gc5, Gc6; try (unfold P; lia).
    rewrite EX, Gc5, Gc6 in Gc7. eapply and_half; [auto| |exact Gc7|reflexivity]. rewrite EX, Gc5, Gc6 in Uo. unfold canon, P. lia.
Qed.

(** multiplication *)
Lemma sgn_sign f s : f <> 0 -> s = b2z (f <? 0) -> bit_to_sign s = Z.sgn f.
Proof. intros N ->. unfold bit_to_sign. destruct (Z.ltb_spec f 0); cbn [b2z]; lia. Qed.
Lemma row_product : u32 (c_op2_value r) -> u32 (c_product_high r) -> u32 (c_product_low r) ->
  f1 * f2 = (c_product_high r - c_product_sign r * 2 ^ 32) * 2 ^ 32 + c_product_low r.
Proof.
  intros V Hh Hl. pose proof abs1 as A1. pose proof (abs2 V) as A2. pose proof f1_bound as B1.
  assert (B2 : Z.abs f2 < 2 ^ 32) by (apply full_bound; auto).
  destruct sign1 as (S1 & F1 & _). destruct (sign2 V) as (S2 & F2 & _). fold f1 in F1. fold f2 in F2. rewrite F1 in S1. rewrite F2 in S2.
  destruct groups as (_ & _ & _ & _ & _ & _ & _ & _ & _ & _ & _ & _ & G & _). unfold mul_constraints in G. inv_forall G.
  rewrite A1, A2 in *. apply binary_canon in Gc; [|apply col_canon; in_cols].
  apply mul_core with (inv := c_product_high_inv r); auto.
  intros N. assert (N1 : f1 <> 0) by (intros E; rewrite E in N; lia). assert (N2 : f2 <> 0) by (intros E; rewrite E in N; lia).
  rewrite <- (sgn_sign f1 _ N1 S1), <- (sgn_sign f2 _ N2 S2).
  assert (SK : fzero (c_skip_product_sign r)).
  { apply fzero_mul in Gc7 as [Gc7|Gc7]; [apply fzero_mul in Gc7 as [Gc7|Gc7]; [auto|]|];
      exfalso; apply fzero_small in Gc7; unfold P; lia. }
  apply fzero_mul_nz in Gc8.
  - apply fzero_eq in Gc8; auto. unfold bit_to_sign, P.
    destruct Gc as [->| ->]; rewrite S1, S2; destruct (f1 <? 0), (f2 <? 0); cbn [b2z]; lia.
  - intros K. pose proof (fzero_add _ _ K SK) as W. replace (1 - c_skip_product_sign r + c_skip_product_sign r) with 1 in W by lia. discriminate W.
Qed.
Definition is_mulop (o : op) : bool := match o with MUL | MULH | MULHU | MULHSU | SLL => true | _ => false end.
Lemma row_mul : is_mulop (iop i) = true -> u32 (c_op2_value r) ->
  c_dst_value r = match iop i with MUL | SLL => word (f1 * f2) | _ => word (f1 * f2 / M32) end.
Proof.
  intros M V.
  assert (MV : c_op r o_mul + c_op r o_mulh + c_op r o_sll = 1) by (rewrite opf; destruct (iop i); try discriminate M; reflexivity).
  assert (Hh : u32 (c_product_high r)) by (apply (rc_col _ _ ltac:(unfold rangecheck_looking; do 6 right; left; reflexivity) MV); apply col_canon; in_cols).
  assert (Hl : u32 (c_product_low r)) by (apply (rc_col _ _ ltac:(unfold rangecheck_looking; do 7 right; left; reflexivity) MV); apply col_canon; in_cols).
  pose proof (row_product V Hh Hl) as E. pose proof (mul_low _ _ _ _ _ Hl E) as EL. pose proof (mul_high _ _ _ _ _ Hl Hh E) as EH.
  destruct groups as (_ & _ & _ & _ & _ & _ & _ & _ & _ & _ & _ & _ & G & _). unfold mul_constraints in G. inv_forall G.
  rewrite <- EL, <- EH. rewrite opf in *. clear -OK Gc9 Gc10 M Hh Hl.
  destruct (iop i); try discriminate M;
    repeat match goal with K : context [selv ?o ?s] |- _ => let v := eval vm_compute in (selv o s) in change (selv o s) with v in K end;
    cbn [Z.add] in *;
    first [apply fz_mul1 in Gc9; apply fzero_canon in Gc9; [exact Gc9|apply col_canon; auto; in_cols..]
          |apply fz_mul1 in Gc10; apply fzero_canon in Gc10; [exact Gc10|apply col_canon; auto; in_cols..]].
Qed.

(** division *)
Definition is_divop (o : op) : bool := match o with DIV | DIVU | REM | REMU | SRL | SRA => true | _ => false end.
Lemma div_rc : is_divop (iop i) = true -> u32 (c_quotient_value r) /\ u32 (c_remainder_value r) /\ u32 (c_remainder_slack r).
Proof.
  intros M.
  assert (MV : c_op r o_div + c_op r o_rem + c_op r o_srl + c_op r o_sra = 1) by (rewrite opf; destruct (iop i); try discriminate M; reflexivity).
  split; [|split]; refine (rc_col _ _ _ MV _); first [apply col_canon; in_cols|unfold rangecheck_looking; repeat first [left; reflexivity|right]].
Qed.
Definition quot_of (o : op) (d : Z) (a b : Z) : Z :=
  if d =? 0 then M32 - 1 else match o with SRA => word (a / b) | _ => word (Z.quot a b) end.
Definition rem_of (d n : Z) (a b : Z) : Z := if d =? 0 then n else word (Z.rem a b).
Lemma row_quotient : is_divop (iop i) = true -> u32 (c_op2_value r) -> (iop i = SRA -> 0 < c_op2_value r <= 2 ^ 31) ->
  (fzero (1 - c_skip_quotient_sign r) -> bit (c_quotient_sign r)) ->
  c_quotient_value r = quot_of (iop i) (c_op2_value r) f1 f2 /\
  (iop i <> SRA -> c_remainder_value r = rem_of (c_op2_value r) (c_op1_value r) f1 f2).
Proof.
  intros M V VS BQ. destruct (div_rc M) as (Hq & Hr & Hs).
  pose proof abs1 as A1. pose proof (abs2 V) as A2. pose proof f1_bound as B1.
  assert (B2 : Z.abs f2 < 2 ^ 32) by (apply full_bound; auto).
  destruct sign1 as (S1 & F1 & BS1). destruct (sign2 V) as (S2 & F2 & _). fold f1 in F1. fold f2 in F2. rewrite F1 in S1. rewrite F2 in S2.
  destruct groups as (_ & _ & _ & _ & _ & _ & _ & _ & _ & _ & _ & G & _). unfold div_constraints in G. inv_forall G.
  rewrite A1, A2, F1, F2 in *.
  unfold quot_of, rem_of. destruct (Z.eqb_spec (c_op2_value r) 0) as [Z2|N2].
  - rewrite Z2, Z.mul_0_l, Z.sub_0_r in *. apply fz_mul1 in Gc8, Gc9. unfold u32 in *. split.
    + apply fzero_eq in Gc8; [exact Gc8|unfold P; lia].
    + intros _. apply fzero_eq in Gc9; [exact Gc9|unfold P; pose proof U1; unfold u32 in *; lia].
  - assert (N : f2 <> 0).
    { unfold f2. destruct (op2_signed (iop i)); auto. unfold sg, M32, u32 in *. destruct (Z.ltb_spec (c_op2_value r) (2 ^ 31)); lia. }
    assert (CQ : canon (c_quotient_sign r)) by (apply col_canon; in_cols).
    apply binary_canon in Gc0; [|apply col_canon; in_cols].
    destruct (decide (iop i = SRA)) as [EO|NO].
    + split; [|tauto]. rewrite EO. specialize (VS EO).
      rewrite opf, EO in Gc, Gc2, Gc3. change (selv SRA o_sra) with 1 in *. apply fz_mul1 in Gc3.
      assert (RS : c_remainder_sign r = 0) by (apply fzero_small in Gc3; [exact Gc3|unfold bit, P in *; lia]).
      assert (EF2 : f2 = c_op2_value r) by (unfold f2; rewrite EO; reflexivity).
      assert (EF1 : f1 = sg (c_op1_value r)) by (unfold f1; rewrite EO; reflexivity).
      unfold quotient_abs, quotient_full_range, remainder_abs, remainder_full_range in *. rewrite RS in *.
      rewrite EF2 in *. rewrite EF1 in *. pose proof (sg_bound _ U1).
      eapply sra_core with (qs := c_quotient_sign r) (skip := c_skip_quotient_sign r) (rv := c_remainder_value r)
        (slack := c_remainder_slack r) (s1 := c_op1_sign_bit r); auto; try lia.
      * replace (c_op2_value r * (bit_to_sign (c_quotient_sign r) * (c_quotient_value r - c_quotient_sign r * 2 ^ 32)) +
          bit_to_sign (c_op1_sign_bit r) * c_remainder_value r - Z.abs (sg (c_op1_value r)))
        with (Z.abs (c_op2_value r) * (bit_to_sign (c_quotient_sign r) * (c_quotient_value r - c_quotient_sign r * 2 ^ 32)) +
          (1 - 1) * (bit_to_sign 0 * (c_remainder_value r - 0 * 2 ^ 32)) +
          1 * (bit_to_sign (c_op1_sign_bit r) * (c_remainder_value r - 0 * 2 ^ 32)) - Z.abs (sg (c_op1_value r))); [exact Gc|].
        rewrite (Z.abs_eq (c_op2_value r)) by lia. ring.
      * replace (bit_to_sign (c_op1_sign_bit r)) with (bit_to_sign (c_op1_sign_bit r) * bit_to_sign (c_op2_sign_bit r)); [exact Gc4|].
        rewrite S2. replace (c_op2_value r <? 0) with false by (symmetry; apply Z.ltb_ge; lia). unfold bit_to_sign. cbn [b2z]. ring.
      * replace (c_op2_value r * (c_remainder_value r + 1 + c_remainder_slack r - c_op2_value r))
        with (Z.abs (c_op2_value r) * (bit_to_sign 0 * (c_remainder_value r - 0 * 2 ^ 32) + 1 + c_remainder_slack r - Z.abs (c_op2_value r))); [exact Gc7|].
        rewrite (Z.abs_eq (c_op2_value r)) by lia. unfold bit_to_sign. ring.
    + assert (SR : c_op r o_sra = 0) by (rewrite opf; destruct (iop i); try discriminate M; try reflexivity; congruence).
      rewrite SR in *. unfold quotient_abs, quotient_full_range, remainder_abs, remainder_full_range in *.
      assert (R : c_quotient_value r = word (Z.quot f1 f2) /\ c_remainder_value r = word (Z.rem f1 f2)).
      { eapply div_core with (qs := c_quotient_sign r) (skip := c_skip_quotient_sign r) (rs := c_remainder_sign r)
          (slack := c_remainder_slack r) (s1 := c_op1_sign_bit r) (s2 := c_op2_sign_bit r); auto.
        - unfold f1, f2. pose proof (sg_bound _ U1). pose proof (sg_bound _ V). pose proof U1. unfold u32 in *.
          clear -M NO H H0 H1 V. destruct (iop i); try discriminate M; try congruence; cbn [op1_signed op2_signed]; lia.
        - match type of Gc with fzero ?x => match goal with |- fzero ?y => replace y with x; [exact Gc|ring] end end.
        - match type of Gc2 with fzero ?x => match goal with |- fzero ?y => replace y with x; [exact Gc2|ring] end end. }
      destruct R as [R1 R2]. split; [rewrite R1; destruct (iop i); try reflexivity; congruence|auto].
Qed.
Lemma row_div : is_divop (iop i) = true ->
  c_dst_value r = match iop i with REM | REMU => c_remainder_value r | _ => c_quotient_value r end.
Proof.
  intros M. destruct groups as (_ & _ & _ & _ & _ & _ & _ & _ & _ & _ & _ & G & _). unfold div_constraints in G. inv_forall G.
  rewrite opf in *. clear -OK Gc10 Gc11 M.
  destruct (iop i); try discriminate M;
    repeat match goal with K : context [selv ?o ?s] |- _ => let v := eval vm_compute in (selv o s) in change (selv o s) with v in K end;
    cbn [Z.add] in *;
    first [apply fz_mul1 in Gc10; apply fzero_canon in Gc10; [exact Gc10|apply col_canon; auto; in_cols..]
          |apply fz_mul1 in Gc11; apply fzero_canon in Gc11; [exact Gc11|apply col_canon; auto; in_cols..]].
Qed.

(** comparisons and branches *)
Lemma row_compare : u32 (c_op2_value r) -> c_normalised_diff r = b2z (negb (f1 =? f2)).
Proof.
  intros V. pose proof f1_bound as B1. assert (B2 : Z.abs f2 < 2 ^ 32) by (apply full_bound; auto).
  destruct sign1 as (S1 & F1 & BS1). destruct (sign2 V) as (S2 & F2 & _). fold f1 in F1. fold f2 in F2.
  destruct groups as (_ & _ & _ & _ & _ & G & _). unfold comparison_constraints, signed_diff in G. rewrite F1, F2 in G. inv_forall G.
  eapply compare_core; eauto. apply col_canon; in_cols.
Qed.
Lemma row_less : u32 (c_op2_value r) -> u32 (c_abs_diff r) -> c_less_than r = b2z (f1 <? f2).
Proof.
  intros V A. pose proof f1_bound as B1. assert (B2 : Z.abs f2 < 2 ^ 32) by (apply full_bound; auto).
  pose proof (row_compare V) as N.
  destruct sign1 as (S1 & F1 & BS1). destruct (sign2 V) as (S2 & F2 & _). fold f1 in F1. fold f2 in F2.
  destruct groups as (_ & _ & _ & _ & _ & G & _). unfold comparison_constraints, signed_diff in G. rewrite F1, F2 in G. inv_forall G.
  eapply less_than_core; eauto. apply col_canon; in_cols.
Qed.
Lemma sg_inj x y : u32 x -> u32 y -> sg x = sg y -> x = y.
Proof. unfold u32, sg, M32. destruct (Z.ltb_spec x (2 ^ 31)), (Z.ltb_spec y (2 ^ 31)); lia. Qed.
Definition br_taken (o : op) (x y : Z) : bool :=
  match o with
  | BEQ => x =? y | BNE => negb (x =? y) | BLT => sg x <? sg y | BLTU => x <? y | BGE => negb (sg x <? sg y) | _ => negb (x <? y)
  end.
Lemma row_branch : is_br (iop i) = true -> u32 a ->
  c_new_pc r = if br_taken (iop i) (c_op1_value r) (c_op2_value_raw r) then imm (iargs i) else a + 4.
Proof.
  intros B UA. pose proof (op2_branch B) as E2. assert (V : u32 (c_op2_value r)) by (rewrite E2; auto).
  pose proof (row_compare V) as N.
  assert (L : (iop i = BLT \/ iop i = BLTU \/ iop i = BGE \/ iop i = BGEU) -> c_less_than r = b2z (f1 <? f2)).
  { intros K. apply row_less; auto. apply (rc_col _ (c_op r o_bge + c_op r o_blt)); [unfold rangecheck_looking; do 5 right; left; reflexivity| |apply col_canon; in_cols].
    rewrite opf. destruct K as [-> |[-> |[-> | ->]]]; reflexivity. }
  destruct groups as (_ & _ & _ & _ & _ & _ & G & _). unfold branch_constraints in G. rewrite immv, pcv in G. inv_forall G.
  rewrite opf in *. unfold f1, f2 in *. rewrite E2 in *.
  assert (CN : canon (c_new_pc r)) by (apply col_canon; in_cols).
  assert (C4 : canon (a + 4)) by (unfold canon, u32, P in *; lia).
  assert (CM : canon (imm (iargs i))) by (unfold canon, u32, P in *; lia).
  clear -B N L CN C4 CM Gc Gc0 Gc1 Gc2 Gc3 Gc4 Gc5 Gc6.
  destruct (iop i); try discriminate B;
    repeat match goal with K : context [selv ?o ?s] |- _ => let v := eval vm_compute in (selv o s) in change (selv o s) with v in K end;
    cbn [op1_signed op2_signed br_taken] in *; rewrite ?Z.mul_1_l in *;
    try (rewrite L in * by tauto);
    rewrite N in *; match goal with |- context [?x =? ?y] => destruct (x =? y) | |- context [?x <? ?y] => destruct (x <? y) end; cbn [b2z negb] in *;
    repeat match goal with
    | K : fzero ((1 - 0) * (c_new_pc r - _)) |- _ => change (1 - 0) with 1 in K; apply fz_mul1 in K; apply fzero_canon in K; auto
    | K : fzero (1 * (c_new_pc r - _)) |- _ => apply fz_mul1 in K; apply fzero_canon in K; auto
    end.
Qed.

(** straight-line instructions and JALR *)
Lemma trans_in x : all_zero (cpu_transition r) -> In x (cpu_transition r) -> fzero x.
Proof. unfold all_zero. rewrite Forall_forall. auto. Qed.
Lemma trans_ticks : all_zero (cpu_transition r) -> fzero (is_straightline r * (c_new_pc r - (c_pc r + 4))).
Proof. intros T. apply trans_in; auto. unfold cpu_transition, pc_ticks_up. apply in_app_iff. left. apply in_eq. Qed.
Lemma trans_jumps : all_zero (cpu_transition r) ->
  fzero (c_op r o_jalr * (c_new_pc r - (c_op1_value r + c_op2_value r)) * (c_new_pc r - (c_op1_value r + c_op2_value r - 2 ^ 32))).
Proof. intros T. apply trans_in; auto. unfold cpu_transition, jalr_transition. cbv zeta. apply in_app_iff. right. apply in_eq. Qed.
Lemma row_next : is_br (iop i) = false -> iop i <> ECALL -> iop i <> JALR -> u32 a -> all_zero (cpu_transition r) -> c_new_pc r = a + 4.
Proof.
  intros B NE NJ UA T. pose proof (trans_ticks T) as H. clear T. rewrite pcv in H.
  assert (E : is_straightline r = 1).
  { unfold is_straightline, is_jumping. rewrite run_val, opf. clear -B NE NJ. destruct (iop i); try discriminate B; try congruence; reflexivity. }
  rewrite E in H. apply fz_mul1 in H. apply fzero_canon in H; auto; [apply col_canon; in_cols|]. unfold canon, u32, P in *. lia.
Qed.
Lemma row_jalr : iop i = JALR -> u32 a -> all_zero (cpu_transition r) -> u32 (c_op2_value r) -> u32 (c_new_pc r) ->
  c_dst_value r = word (a + 4) /\ c_new_pc r = word (c_op1_value r + c_op2_value r).
Proof.
  intros EO UA T V UN. pose proof (trans_jumps T) as H. clear T.
  destruct groups as (_ & _ & _ & _ & _ & _ & _ & _ & _ & _ & _ & _ & _ & G & _). unfold jalr_constraints in G. inv_forall G.
  rewrite pcv in Gc. rewrite opf, EO in *. change (selv JALR o_jalr) with 1 in *. rewrite Z.mul_1_l in *.
  assert (D : u32 (c_dst_value r)).
  { apply (rc_col _ (c_op r o_add + c_op r o_sub + c_op r o_jalr)); [unfold rangecheck_looking; do 3 right; left; reflexivity| |apply col_canon; in_cols].
    rewrite opf, EO. reflexivity. }
  pose proof U1. unfold word, M32, u32 in *. change (2 ^ 32) with 4294967296 in *. split.
  - apply fzero_mul in Gc as [K|K]; apply fzero_small in K; unfold P; lia.
  - apply fzero_mul in H as [K|K]; apply fzero_small in K; unfold P; lia.
Qed.
End Row.

(** ** Selectors of an arbitrary row *)
Lemma sum_bits_one {A} (f : A -> Z) (l : list A) : (forall x, In x l -> bit (f x)) ->
  0 <= sumZ (map f l) <= Z.of_nat (length l).
Proof.
  induction l as [|x l IH]; intros B; [cbn; lia|]. cbn [map length]. rewrite sumZ_cons, Nat2Z.inj_succ.
  pose proof (B x (or_introl eq_refl)) as Bx. specialize (IH (fun y I => B y (or_intror I))). unfold bit in *. lia.
Qed.
Lemma sum_bits_le {A} (f : A -> Z) (l : list A) x y : (forall x, In x l -> bit (f x)) -> In x l -> In y l -> x <> y ->
  f x + f y <= sumZ (map f l).
Proof.
  induction l as [|z l IH]; intros B Ix Iy N; [destruct Ix|]. cbn [map]. rewrite sumZ_cons.
  assert (B' : forall x, In x l -> bit (f x)) by (intros; apply B; right; auto).
  assert (G : forall x, In x l -> f x <= sumZ (map f l)).
  { clear -B'. induction l as [|w l IH]; intros x I; [destruct I|]. cbn [map]. rewrite sumZ_cons.
    pose proof (sum_bits_one f l (fun y I => B' y (or_intror I))). pose proof (B' w (or_introl eq_refl)). 
    destruct I as [->|I]; [unfold bit in *; lia|]. specialize (IH (fun y I => B' y (or_intror I)) x I). unfold bit in *; lia. }
  destruct Ix as [->|Ix], Iy as [->|Iy].
  - congruence.
  - specialize (G y Iy). lia.
  - specialize (G x Ix). lia.
  - specialize (IH B' Ix Iy N). pose proof (B z (or_introl eq_refl)). unfold bit in *; lia.
Qed.
Lemma sum_bits_pos {A} (f : A -> Z) (l : list A) : (forall x, In x l -> bit (f x)) -> 1 <= sumZ (map f l) -> exists x, In x l /\ f x = 1.
Proof.
  induction l as [|x l IH]; intros B H; [cbn in H; lia|]. cbn [map] in H. rewrite sumZ_cons in H.
  destruct (B x (or_introl eq_refl)) as [E|E]; [|exists x; split; [left|]; auto].
  destruct (IH (fun y I => B y (or_intror I))) as (y & I & Y); [lia|]. exists y. split; [right|]; auto.
Qed.
Lemma all_osel_in s : In s all_osel. Proof. destruct s; cbn; tauto. Qed.
Lemma all_esel_in e : In e all_esel. Proof. destruct e; cbn; tauto. Qed.
Lemma osel_canon r s : Forall canon (cpu_columns r) -> canon (c_op r s).
Proof.
  intros C. rewrite Forall_forall in C. apply C. unfold cpu_columns. apply in_app_iff. right. apply in_app_iff. left.
  apply in_map. apply all_osel_in.
Qed.
Lemma esel_canon r e : Forall canon (cpu_columns r) -> canon (c_ecall r e).
Proof.
  intros C. rewrite Forall_forall in C. apply C. unfold cpu_columns. apply in_app_iff. right. apply in_app_iff. right.
  apply in_app_iff. right. apply in_map. apply all_esel_in.
Qed.
Lemma one_hot r : Forall canon (cpu_columns r) -> all_zero (cpu_always r) ->
  (forall s, bit (c_op r s)) /\ (forall s s', c_op r s = 1 -> c_op r s' = 1 -> s = s').
Proof.
  intros C Z0. unfold all_zero, cpu_always in Z0. rewrite !Forall_app in Z0. destruct Z0 as (G & _).
  unfold binary_selectors in G. rewrite Forall_app, List.Forall_map in G. destruct G as [G1 G2]. rewrite Forall_forall in G1. cbv beta in G1.
  assert (B : forall s, bit (c_op r s)).
  { intros s. apply binary_canon; [apply osel_canon; auto|]. apply G1, all_osel_in. }
  split; auto. intros s s' E E'. destruct (decide (s = s')) as [|N]; auto. exfalso.
  apply Forall_inv in G2. rename G2 into K.
  pose proof (sum_bits_one (c_op r) all_osel (fun x _ => B x)) as S1. assert (LN : length all_osel = 25%nat) by reflexivity. rewrite LN in S1. clear LN.
  pose proof (sum_bits_le (c_op r) all_osel s s' (fun x _ => B x) (all_osel_in s) (all_osel_in s') N) as S2. rewrite E, E' in S2.
  assert (EQ : is_running r = sumZ (map (c_op r) all_osel)) by reflexivity. rewrite <- EQ in S1, S2. clear EQ.
  generalize dependent (is_running r). clear. intros t K S1 S2. unfold is_binary in K. apply fzero_small in K; [|unfold P; nia]. nia.
Qed.
Lemma ecall_sound r : Forall canon (cpu_columns r) -> all_zero (cpu_always r) ->
  (c_op r o_ecall = 1 -> exists e, c_ecall r e = 1 /\ c_op1_value r = ecall_number e /\ forall e', e' <> e -> c_ecall r e' = 0) /\
  (c_op r o_ecall = 0 -> forall e, c_ecall r e = 0).
Proof.
  intros C Z0. destruct (one_hot r C Z0) as [BO _]. unfold all_zero, cpu_always in Z0. rewrite !Forall_app in Z0.
  destruct Z0 as (_ & _ & _ & _ & _ & _ & _ & _ & _ & _ & _ & _ & _ & _ & G).
  unfold ecall_constraints in G. rewrite !Forall_app, !List.Forall_map in G. destruct G as (G1 & G2 & G3).
  rewrite Forall_forall in G1, G3. apply Forall_inv in G2. rename G2 into K.
  assert (B : forall e, bit (c_ecall r e)) by (intros e; apply binary_canon; [apply esel_canon; auto|apply G1, all_esel_in]).
  pose proof (sum_bits_one (c_ecall r) all_esel (fun x _ => B x)) as S1. assert (LN : length all_esel = 9%nat) by reflexivity. rewrite LN in S1. clear LN.
  apply fzero_eq in K; [|destruct (BO o_ecall) as [-> | ->]; unfold P; lia].
  assert (TW : forall x y, c_ecall r x = 1 -> c_ecall r y = 1 -> sumZ (map (c_ecall r) all_esel) <= 1 -> x = y).
  { intros x y X Y L. destruct (decide (x = y)) as [|N]; auto.
    pose proof (sum_bits_le (c_ecall r) all_esel x y (fun x _ => B x) (all_esel_in x) (all_esel_in y) N). lia. }
  split; intros E; rewrite E in K.
  - destruct (sum_bits_pos (c_ecall r) all_esel (fun x _ => B x)) as (e & _ & H1); [lia|]. exists e. split; auto. split.
    + assert (I : In e [e_halt; e_private; e_public; e_call; e_event; e_events_commitment; e_cast_list_commitment; e_self_prog_id; e_poseidon2])
        by (destruct e; cbn; tauto).
      specialize (G3 e I). cbn beta in G3. rewrite H1, Z.mul_1_l in G3. apply fzero_canon in G3; auto.
      * rewrite Forall_forall in C. apply C. in_cols.
      * destruct e; unfold canon, P; cbn; lia.
    + intros e' N. destruct (B e') as [|H]; auto. exfalso. apply N. apply TW; auto. lia.
  - intros e. destruct (B e) as [|H]; auto. exfalso.
    assert (1 <= sumZ (map (c_ecall r) all_esel)); [|lia].
    clear -H B. pose proof (all_esel_in e) as I. revert I. generalize all_esel. induction l as [|x l IH]; intros I; [destruct I|].
    cbn [map]. rewrite sumZ_cons. pose proof (sum_bits_one (c_ecall r) l (fun x _ => B x)). destruct I as [->|I]; [lia|].
    specialize (IH I). pose proof (B x). unfold bit in *; lia.
Qed.
