(** Soundness of the CPU table stated for RV32IM instructions. *)
From Verif Require Import CircuitSpec TableProofs CpuArith CpuProofs.
Import RvSpec.
Open Scope Z_scope.
Ltac Zify.zify_post_hook ::= Z.div_mod_to_equations.

Lemma word_u32 z : u32 (word z).
Proof. unfold u32, word, M32. apply Z.mod_pos_bound. reflexivity. Qed.
Lemma word_id z : u32 z -> word z = z.
Proof. unfold u32, word, M32. intros. apply Z.mod_small. lia. Qed.
Lemma pow2_u32 k : 0 <= k < 32 -> u32 (2 ^ k) /\ 0 < 2 ^ k <= 2 ^ 31.
Proof.
  intros. assert (0 < 2 ^ k) by (apply Z.pow_pos_nonneg; lia). assert (2 ^ k <= 2 ^ 31) by (apply Z.pow_le_mono_r; lia).
  unfold u32. lia.
Qed.
Lemma lower_imm a i : rv_ok i -> u32 a -> u32 (imm (iargs (lower a i))).
Proof.
  intros OK UA. assert (Z0 : u32 0) by (unfold u32; lia).
  destruct i as [o rd rs1 rs2|o rd rs1 k|o rd rs1 sh|w us rd rs1 k|w rs1 rs2 k|c rs1 rs2 k|rd k|rd k|rd k|rd rs1 k|? ?|? ?|? ?|? ? ? ?|?];
    cbn [lower iargs imm]; auto using word_u32.
  - cbn [rv_ok] in OK. destruct o; cbn [iargs imm]; try (apply pow2_u32; tauto). unfold u32. lia.
  - cbn [rv_ok] in OK. unfold u32. lia.
Qed.

Section Sound.
Context (r : cpu) (a : Z) (i : rv32) (x1 x2 : Z) (OK : cpu_row_ok r) (CA : carries r a i x1 x2).
Let l := lower a i.
Let CI : c_inst r = inst_cols a l := ca_inst _ _ _ _ _ CA.
Let U1 : u32 (c_op1_value r). Proof. rewrite (ca_x1 _ _ _ _ _ CA). exact (ca_u1 _ _ _ _ _ CA). Qed.
Let U2 : u32 (c_op2_value_raw r). Proof. rewrite (ca_x2 _ _ _ _ _ CA). exact (ca_u2 _ _ _ _ _ CA). Qed.
Let UI : u32 (imm (iargs l)). Proof. apply lower_imm; [exact (ca_ok _ _ _ _ _ CA)|exact (ca_pc _ _ _ _ _ CA)]. Qed.

(** the second operand of a register-immediate or register-register instruction *)
Definition second (j : rv32) (y : Z) : Z :=
  match j with AluI _ _ _ k | Jalr _ _ k => word k | ShiftI _ _ _ sh => 2 ^ sh | Jal _ off => word (a + off)
  | Alu (rSLL | rSRL | rSRA) _ _ _ => 2 ^ (y mod 32) | _ => y end.
Definition alu_like (j : rv32) : bool := match j with Alu _ _ _ _ | AluI _ _ _ _ | ShiftI _ _ _ _ | Jal _ _ | Jalr _ _ _ => true | _ => false end.
Lemma op2_val : alu_like i = true -> c_op2_value r = second i x2.
Proof.
  intros A. pose proof (op2_plain r a l OK CI U2 UI) as HP. pose proof (op2_shift r a l OK CI U2 UI) as HS.
  pose proof (ca_x2 _ _ _ _ _ CA) as E2. pose proof (ca_z2 _ _ _ _ _ CA) as Z2. pose proof (ca_ok _ _ _ _ _ CA) as RO.
  pose proof (ca_u2 _ _ _ _ _ CA) as V2. fold l in Z2. unfold l in HP, HS, Z2, UI. rewrite E2 in *. clear E2.
  destruct i as [o rd rs1 rs2|o rd rs1 k|o rd rs1 sh|w us rd rs1 k|w rs1 rs2 k|c rs1 rs2 k|rd k|rd k|rd k|rd rs1 k|? ?|? ?|? ?|? ? ? ?|?];
    try discriminate A; cbn [lower iargs iop imm RunnerModel.rs2 second] in *.
  - destruct o; cbn [op_of_alu is_br is_sh is_mem] in *;
      rewrite Z.add_0_r in *; first [rewrite (HS eq_refl V2); reflexivity|rewrite (HP eq_refl eq_refl eq_refl); lia].
  - rewrite (Z2 eq_refl) in *. destruct o; cbn [op_of_alui is_br is_sh is_mem] in *; rewrite (HP eq_refl eq_refl eq_refl); apply Z.add_0_l.
  - cbn [rv_ok] in RO. destruct o; cbn [iargs iop imm RunnerModel.rs2 is_br is_sh is_mem] in *; rewrite (Z2 eq_refl) in *.
    + rewrite (HP eq_refl eq_refl eq_refl); apply Z.add_0_l.
    + rewrite (HP eq_refl eq_refl eq_refl); apply Z.add_0_l.
    + rewrite (HS eq_refl). 2:{ unfold u32; lia. } rewrite Z.add_0_l, Z.mod_small by lia. reflexivity.
  - rewrite (Z2 eq_refl) in *. cbn [is_br is_sh is_mem] in *. rewrite (HP eq_refl eq_refl eq_refl); apply Z.add_0_l.
  - rewrite (Z2 eq_refl) in *. cbn [is_br is_sh is_mem] in *. rewrite (HP eq_refl eq_refl eq_refl); apply Z.add_0_l.
Qed.
Lemma second_u32 : alu_like i = true -> u32 (second i x2).
Proof.
  intros A. pose proof (ca_ok _ _ _ _ _ CA) as RO. pose proof (ca_u2 _ _ _ _ _ CA) as V2.
  destruct i as [o rd rs1 rs2|o rd rs1 k|o rd rs1 sh|w us rd rs1 k|w rs1 rs2 k|c rs1 rs2 k|rd k|rd k|rd k|rd rs1 k|? ?|? ?|? ?|? ? ? ?|?];
    try discriminate A; cbn [second rv_ok] in *; try apply word_u32.
  - destruct o; auto; apply pow2_u32; lia.
  - apply pow2_u32. lia.
Qed.

Definition is_bitwise (j : rv32) : bool :=
  match j with Alu (rSUB | rXOR | rOR | rAND) _ _ _ | AluI (iXORI | iORI | iANDI) _ _ _ => true | _ => false end.
Lemma bitwise_sound v : is_bitwise i = true -> rv_value a i x1 x2 = Some v -> c_dst_value r = v.
Proof.
  intros B E. assert (A : alu_like i = true) by (destruct i; try discriminate B; reflexivity).
  pose proof (op2_val A) as V. pose proof (second_u32 A) as US. rewrite <- V in US.
  pose proof (fun e => row_sub r a l OK CI U1 e US) as HS.
  pose proof (row_bitwise r a l OK CI U1 US) as (HA & HO & HX).
  rewrite (ca_x1 _ _ _ _ _ CA), V in *. unfold l in *. clear V US CI UI U1 U2. subst l. clear CA OK.
  destruct i as [o ? ? ?|o ? ? ?| | | | | | | | | | | | |]; try discriminate B; destruct o; try discriminate B;
    cbn [rv_value alu_sem alui_sem second lower iop op_of_alu op_of_alui] in *; injection E as <-; auto.
Qed.

Lemma f1_val : f1 r l = if op1_signed (iop l) then sg x1 else x1.
Proof. unfold f1. rewrite (ca_x1 _ _ _ _ _ CA). reflexivity. Qed.
Lemma f2_val : alu_like i = true -> f2 r l = if op2_signed (iop l) then sg (second i x2) else second i x2.
Proof. intros A. unfold f2. rewrite (op2_val A). reflexivity. Qed.

Definition is_mul (j : rv32) : bool :=
  match j with Alu (rMUL | rMULH | rMULHSU | rMULHU | rSLL) _ _ _ | ShiftI sSLLI _ _ _ => true | _ => false end.
Lemma mul_sound v : is_mul i = true -> rv_value a i x1 x2 = Some v -> c_dst_value r = v.
Proof.
  intros B E. assert (A : alu_like i = true) by (destruct i; try discriminate B; reflexivity).
  pose proof (op2_val A) as V. pose proof (second_u32 A) as US. rewrite <- V in US.
  assert (M : is_mulop (iop l) = true).
  { unfold l. clear -B. destruct i as [o ? ? ?|o ? ? ?|o ? ? ?| | | | | | | | | | | |]; try discriminate B; destruct o; try discriminate B; reflexivity. }
  rewrite (row_mul r a l OK CI U1 M US). rewrite f1_val, (f2_val A). unfold l. clear -B E.
  destruct i as [o ? ? ?|o ? ? ?|o ? ? ?| | | | | | | | | | | |]; try discriminate B; destruct o; try discriminate B;
    cbn [rv_value alu_sem shifti_sem second lower iop op_of_alu op_of_alui op1_signed op2_signed] in *; injection E as <-; reflexivity.
Qed.

Definition is_div (j : rv32) : bool :=
  match j with Alu (rDIV | rDIVU | rREM | rREMU | rSRL | rSRA) _ _ _ | ShiftI (sSRLI | sSRAI) _ _ _ => true | _ => false end.
Lemma quot_small x y : u32 x -> 0 < y -> word (Z.quot x y) = x / y.
Proof.
  intros X Y. unfold u32 in X. rewrite Z.quot_div_nonneg by lia. apply word_id. unfold u32. split; [apply Z.div_pos; lia|].
  apply Z.le_lt_trans with x; [|lia]. apply Z.div_le_upper_bound; nia.
Qed.
Lemma rem_small x y : u32 x -> 0 < y -> word (Z.rem x y) = x mod y.
Proof.
  intros X Y. unfold u32 in X. rewrite Z.rem_mod_nonneg by lia. apply word_id. unfold u32.
  pose proof (Z.mod_le x y ltac:(lia) Y). pose proof (Z.mod_pos_bound x y Y). lia.
Qed.
Lemma div_sound v : (fzero (1 - c_skip_quotient_sign r) -> bit (c_quotient_sign r)) ->
  is_div i = true -> rv_value a i x1 x2 = Some v -> c_dst_value r = v.
Proof.
  intros Q B E. assert (A : alu_like i = true) by (destruct i; try discriminate B; reflexivity).
  pose proof (op2_val A) as V. pose proof (second_u32 A) as US. rewrite <- V in US.
  assert (M : is_divop (iop l) = true).
  { unfold l. clear -B. destruct i as [o ? ? ?|o ? ? ?|o ? ? ?| | | | | | | | | | | |]; try discriminate B; destruct o; try discriminate B; reflexivity. }
  destruct (row_quotient r a l OK CI U1 M US) as [HQ HR]; auto.
  { intros EO. rewrite V. pose proof (ca_ok _ _ _ _ _ CA) as RO. unfold l in EO. clear -B EO RO.
    destruct i as [o ? ? ?|o ? ? ?|o ? ? ?| | | | | | | | | | | |]; try discriminate B; destruct o; try discriminate B; try discriminate EO;
      cbn [second rv_ok] in *; apply pow2_u32; lia. }
  rewrite (row_div r a l OK CI M). rewrite f1_val, (f2_val A), V in *.
  pose proof (ca_u1 _ _ _ _ _ CA) as V1. pose proof (ca_u2 _ _ _ _ _ CA) as V2. rewrite (ca_x1 _ _ _ _ _ CA) in *.
  pose proof (ca_ok _ _ _ _ _ CA) as RO. unfold l in *. clear -B E HQ HR V1 V2 RO. unfold quot_of, rem_of in *.
  assert (ZP : forall k, 0 <= k < 32 -> (2 ^ k =? 0) = false /\ 0 < 2 ^ k).
  { intros k K. destruct (pow2_u32 k K). split; [apply Z.eqb_neq|]; lia. }
  destruct i as [o ? ? ?|o ? ? ?|o ? ? sh| | | | | | | | | | | |]; try discriminate B; destruct o; try discriminate B;
    cbn [rv_value alu_sem shifti_sem second lower iop op_of_alu op_of_alui op1_signed op2_signed rv_ok] in *; injection E as <-;
    try (destruct (ZP (x2 mod 32) ltac:(lia)) as [ZE ZG]; rewrite ZE in * );
    try (destruct (ZP sh ltac:(lia)) as [ZE' ZG']; rewrite ZE' in * ); try rewrite HQ; try (rewrite HR by discriminate);
    try (apply quot_small; auto); try reflexivity.
  - destruct (Z.eqb_spec x2 0); auto. apply quot_small; auto. unfold u32 in *; lia.
  - destruct (Z.eqb_spec x2 0); auto. apply rem_small; auto. unfold u32 in *; lia.
Qed.

(** comparisons, under the hypothesis that the absolute difference is a 32-bit number *)
Definition is_slt (j : rv32) : bool := match j with Alu (rSLT | rSLTU) _ _ _ | AluI (iSLTI | iSLTIU) _ _ _ => true | _ => false end.
Lemma sg_imm k : is_imm12 k -> sg (word k) = k.
Proof. unfold is_imm12, sg, word, M32. intros. destruct (Z.ltb_spec (k mod 2 ^ 32) (2 ^ 31)); lia. Qed.
Lemma slt_sound v : u32 (c_abs_diff r) -> is_slt i = true -> rv_value a i x1 x2 = Some v -> c_dst_value r = v.
Proof.
  intros UD B E. assert (A : alu_like i = true) by (destruct i; try discriminate B; reflexivity).
  pose proof (op2_val A) as V. pose proof (second_u32 A) as US. rewrite <- V in US.
  pose proof (row_less r a l OK CI U1 US UD) as L. rewrite f1_val, (f2_val A) in L.
  assert (D : c_less_than r = c_dst_value r).
  { destruct (groups r OK) as (_ & _ & _ & _ & _ & _ & _ & _ & _ & G & _). apply Forall_inv in G.
    rewrite (opf r a l CI) in G. replace (selv (iop l) o_slt) with 1 in G.
    - rewrite Z.mul_1_l in G. apply fzero_canon in G; auto; apply (col_canon r OK); in_cols.
    - unfold l. clear -B. destruct i as [o ? ? ?|o ? ? ?|o ? ? ?| | | | | | | | | | | |]; try discriminate B; destruct o; try discriminate B; reflexivity. }
  rewrite <- D, L. pose proof (ca_ok _ _ _ _ _ CA) as RO. unfold l. clear -B E RO.
  destruct i as [o ? ? ?|o ? ? ?|o ? ? ?| | | | | | | | | | | |]; try discriminate B; destruct o; try discriminate B;
    cbn [rv_value alu_sem alui_sem second lower iop op_of_alu op_of_alui op1_signed op2_signed rv_ok] in *; injection E as <-;
    rewrite ?sg_imm by tauto; first [destruct (sg _ <? _)|destruct (_ <? _)]; reflexivity.
Qed.

(** next pc *)
Lemma branch_sound c s1 s2 off : i = Branch c s1 s2 off -> a + 4 < 2 ^ 32 -> c_new_pc r = rv_next a i x1 x2.
Proof.
  intros E H. pose proof (ca_pc _ _ _ _ _ CA) as UA.
  pose proof (row_branch r a l OK CI U1 U2 UI) as B. rewrite (ca_x1 _ _ _ _ _ CA), (ca_x2 _ _ _ _ _ CA) in B.
  unfold l in B. clear -E H B UA. subst i. cbn [lower iargs imm iop rv_next] in *.
  assert (W : word (a + 4) = a + 4) by (apply word_id; unfold u32 in *; lia). rewrite W.
  destruct c; cbn [op_of_cond is_br br_taken cond_sem] in *; apply B; auto.
Qed.
Definition straight (j : rv32) : bool :=
  match j with Alu rADD _ _ _ | AluI iADDI _ _ _ => false | Alu _ _ _ _ | AluI _ _ _ _ | ShiftI _ _ _ _ | Load _ _ _ _ _ | Store _ _ _ _ => true | _ => false end.
Lemma straight_sound : all_zero (cpu_transition r) -> straight i = true -> a + 4 < 2 ^ 32 -> c_new_pc r = rv_next a i x1 x2.
Proof.
  intros T B H. pose proof (ca_pc _ _ _ _ _ CA) as UA.
  assert (W : word (a + 4) = a + 4) by (apply word_id; unfold u32 in *; lia).
  rewrite (row_next r a l OK CI); auto.
  - clear -B W. destruct i; try discriminate B; cbn [rv_next]; auto.
  - unfold l. clear -B. destruct i as [o ? ? ?|o ? ? ?|o ? ? ?|w us ? ? ?|w ? ? ?| | | | | | | | | |]; try discriminate B; try (destruct o; reflexivity); destruct w; try (destruct us); reflexivity.
  - unfold l. clear -B. destruct i as [o ? ? ?|o ? ? ?|o ? ? ?|w us ? ? ?|w ? ? ?| | | | | | | | | |]; try discriminate B; try (destruct o; discriminate); destruct w; try (destruct us); discriminate.
  - unfold l. clear -B. destruct i as [o ? ? ?|o ? ? ?|o ? ? ?|w us ? ? ?|w ? ? ?| | | | | | | | | |]; try discriminate B; try (destruct o; discriminate); destruct w; try (destruct us); discriminate.
Qed.
Definition is_jump (j : rv32) : bool := match j with Jal _ _ | Jalr _ _ _ => true | _ => false end.
Lemma jump_sound : all_zero (cpu_transition r) -> is_jump i = true -> u32 (c_new_pc r) -> c_new_pc r mod 2 = 0 ->
  c_new_pc r = rv_next a i x1 x2 /\ rv_value a i x1 x2 = Some (c_dst_value r).
Proof.
  intros T B UN EV. pose proof (ca_pc _ _ _ _ _ CA) as UA.
  assert (A : alu_like i = true) by (destruct i; try discriminate B; reflexivity).
  pose proof (op2_val A) as V. pose proof (second_u32 A) as US. rewrite <- V in US.
  assert (EO : iop l = JALR) by (unfold l; clear -B; destruct i; try discriminate B; reflexivity).
  destruct (row_jalr r a l OK CI U1 EO UA T US UN) as [D N]. rewrite (ca_x1 _ _ _ _ _ CA), V in N. rewrite D, N.
  pose proof (ca_z1 _ _ _ _ _ CA) as Z1. rewrite N in EV. pose proof (ca_u1 _ _ _ _ _ CA) as V1. clear -B EV V1 Z1.
  destruct i as [| | | | | | | |rd off|rd s k| | | | |]; try discriminate B; cbn [rv_next rv_value second lower iargs rs1] in *; split; auto.
  - rewrite (Z1 eq_refl), Z.add_0_l. unfold word, M32. rewrite Z.mod_mod by lia. reflexivity.
  - assert (W : word (x1 + word k) = word (x1 + k)) by (unfold word, M32; rewrite Zplus_mod_idemp_r; reflexivity).
    rewrite W in *. lia.
Qed.
End Sound.
