(** Completeness of the CPU table: the rows generated from VM steps satisfy its constraints. *)
From Verif Require Import RunSpec CircuitSpec TableProofs CpuArith ExecProofs StepProofs CpuWitness.
Import RvSpec.
Open Scope Z_scope.
Ltac Zify.zify_post_hook ::= Z.div_mod_to_equations.

Lemma fz0 x : x = 0 -> fzero x. Proof. intros ->. apply fzero_0. Qed.
Lemma bit_b2z b : bit (b2z b). Proof. destruct b; unfold bit; auto. Qed.
Lemma b2z_not b : 1 - b2z b = b2z (negb b). Proof. destruct b; reflexivity. Qed.

(** ** Comparison, product and quotient columns, from the two operands read as integers *)
Section Gadgets.
Context (f1 f2 : Z) (B1 : Z.abs f1 < 2 ^ 32) (B2 : Z.abs f2 < 2 ^ 32).

Lemma gen_compare :
  let lt := b2z (f1 <? f2) in let ad := Z.abs (f1 - f2) in let diff := (f1 - f2) mod P in
  let nd := b2z (negb (diff =? 0)) in
  all_zero [is_binary lt; (1 - lt) * (ad - (f1 - f2)); lt * (ad + (f1 - f2)); is_binary nd;
            (f1 - f2) * (1 - nd); (f1 - f2) * finv diff - nd; lt * (1 - nd)] /\ nd = b2z (negb (f1 =? f2)).
Proof.
  intros lt ad diff nd.
  assert (D : (diff =? 0) = (f1 =? f2)).
  { unfold diff. destruct (Z.eqb_spec f1 f2) as [->|N]; [rewrite Z.sub_diag; reflexivity|].
    apply Z.eqb_neq. intros E. apply (nz_small (f1 - f2)) in E; auto; unfold P; lia. }
  assert (N : nd = b2z (negb (f1 =? f2))) by (unfold nd; rewrite D; reflexivity). split; auto. rewrite N.
  assert (I : fzero ((f1 - f2) * finv diff - b2z (negb (f1 =? f2)))).
  { destruct (Z.eqb_spec f1 f2) as [->|E]; [rewrite Z.sub_diag; reflexivity|]. cbn [negb b2z].
    destruct (finv_ok diff) as [K _].
    { intros Z0. unfold fzero, diff in Z0. rewrite Z.mod_mod in Z0 by (unfold P; lia).
      revert Z0. apply nz_small; [lia|unfold P; lia]. }
    unfold diff in K at 1. rewrite Zmult_mod_idemp_l in K. unfold fzero. rewrite Zminus_mod, K. reflexivity. }
  unfold all_zero, lt, ad. clearbody diff. clear N D nd.
  destruct (Z.ltb_spec f1 f2), (Z.eqb_spec f1 f2); try lia; cbn [b2z negb] in *; repeat constructor; auto; try (apply fz0; lia).
Qed.

Lemma gen_product_ok : let '(ps, high, low) := gen_product f1 f2 in
  let inv := finv (if ps =? 1 then high else 4294967295 - high) in
  let s1 := b2z (f1 <? 0) in let s2 := b2z (f2 <? 0) in
  let skip := b2z (Z.abs f1 * Z.abs f2 =? 0) in
  u32 high /\ u32 low /\ bit ps /\ (0 <= f1 -> 0 <= f2 -> ps = 0) /\ canon inv /\
  f1 * f2 = (high - ps * 2 ^ 32) * 2 ^ 32 + low /\
  all_zero [is_binary ps;
   (1 - ps) * (high * 2 ^ 32 + low - Z.abs f1 * Z.abs f2);
   ps * (2 ^ 32 * (2 ^ 32 - high) - low - Z.abs f1 * Z.abs f2);
   (1 - ps) * (1 - (4294967295 - high) * inv);
   ps * (1 - high * inv);
   skip * Z.abs f1 * Z.abs f2;
   (1 - skip) * (bit_to_sign ps - bit_to_sign s1 * bit_to_sign s2)].
Proof.
  unfold gen_product. set (m := Z.abs f1 * Z.abs f2).
  assert (MB : 0 <= m <= (2 ^ 32 - 1) * (2 ^ 32 - 1)) by (unfold m; nia).
  assert (MM : f1 * f2 = if xorb (f1 <? 0) (f2 <? 0) then - m else m).
  { unfold m. rewrite <- Z.abs_mul. destruct (Z.ltb_spec f1 0), (Z.ltb_spec f2 0); cbn [xorb]; nia. }
  assert (Mz : m = 0 <-> f1 = 0 \/ f2 = 0) by (unfold m; nia).
  clearbody m. cbv zeta. destruct (Z.eqb_spec m 0) as [E|E].
  - cbn [negb andb b2z]. rewrite E in *. change (if 0 =? 1 then 0 / 2 ^ 32 else 4294967295 - 0 / 2 ^ 32) with 4294967295.
    destruct (finv_ok 4294967295) as [K C]; [discriminate|].
    split; [unfold u32; cbn; lia|]. split; [unfold u32; cbn; lia|]. split; [left; auto|]. split; auto. split; auto.
    split; [destruct (xorb _ _); cbn; lia|].
    repeat constructor; try (apply fz0; cbn; lia).
  - cbn [negb andb]. destruct (xorb (f1 <? 0) (f2 <? 0)) eqn:X; cbn [b2z].
    + change (1 =? 1) with true. cbv iota. set (w := 18446744073709551615 - m + 1).
      assert (W : w = 2 ^ 64 - m) by (unfold w; lia). clearbody w.
      assert (Hh : 1 <= w / 2 ^ 32 < 2 ^ 32) by lia. assert (WD : w = w / 2 ^ 32 * 2 ^ 32 + w mod 2 ^ 32) by lia.
      set (high := w / 2 ^ 32) in *. set (low := w mod 2 ^ 32) in *. assert (Hl : 0 <= low < 2 ^ 32) by (unfold low; lia).
      clearbody high low. destruct (finv_ok high) as [K C]; [apply nz_small; unfold P; lia|].
      split; [unfold u32; lia|]. split; [unfold u32; lia|]. split; [right; auto|].
      split; [intros; destruct (Z.ltb_spec f1 0), (Z.ltb_spec f2 0); try discriminate X; lia|]. split; auto.
      split; [lia|]. repeat constructor; try (apply fz0; lia).
      * unfold fzero. rewrite Z.mul_1_l, Zminus_mod, K. reflexivity.
      * apply fz0. destruct (f1 <? 0), (f2 <? 0); try discriminate X; reflexivity.
    + change (0 =? 1) with false. cbv iota.
      assert (Hh : 0 <= m / 2 ^ 32 < 2 ^ 32 - 1) by lia. assert (WD : m = m / 2 ^ 32 * 2 ^ 32 + m mod 2 ^ 32) by lia.
      set (high := m / 2 ^ 32) in *. set (low := m mod 2 ^ 32) in *. assert (Hl : 0 <= low < 2 ^ 32) by (unfold low; lia).
      clearbody high low. destruct (finv_ok (4294967295 - high)) as [K C]; [apply nz_small; unfold P; lia|].
      split; [unfold u32; lia|]. split; [unfold u32; lia|]. split; [left; auto|]. split; auto. split; auto.
      split; [lia|]. repeat constructor; try (apply fz0; lia).
      * unfold fzero. rewrite Z.sub_0_r, Z.mul_1_l, Zminus_mod, K. reflexivity.
      * apply fz0. destruct (f1 <? 0), (f2 <? 0); try discriminate X; reflexivity.
Qed.

(** [o1], [o2] are the operand words whose integer readings are [f1], [f2] *)
Lemma gen_div_ok (i : instruction) (sg2 : bool) o1 o2 :
  u32 o1 -> u32 o2 -> f1 = o1 - b2z (f1 <? 0) * 2 ^ 32 -> f2 = o2 - b2z (f2 <? 0) * 2 ^ 32 ->
  let sra := b2z (bool_decide (iop i = SRA)) in
  (iop i = SRA -> 0 < f2) -> ~ (f1 = -31 /\ f2 = -1) ->
  let s1 := b2z (f1 <? 0) in let s2 := b2z (f2 <? 0) in
  let '(q, qs, skip, rm, rs, slack) := gen_div i sg2 o1 f1 f2 in
  let qf := q - qs * 2 ^ 32 in let rf := rm - rs * 2 ^ 32 in
  u32 q /\ bit qs /\ bit skip /\ u32 rm /\ bit rs /\ u32 slack /\
  all_zero [Z.abs f2 * (bit_to_sign qs * qf) + (1 - sra) * (bit_to_sign rs * rf) + sra * (bit_to_sign s1 * rf) - Z.abs f1;
   is_binary rs; is_binary s1;
   (1 - sra) * rm * (s1 - rs);
   sra * rs;
   (1 - skip) * (bit_to_sign qs - bit_to_sign s1 * bit_to_sign s2);
   skip * f2 * (q + qf);
   (1 - skip) * (f2 * qf + rf - f1);
   Z.abs f2 * (bit_to_sign rs * rf + 1 + slack - Z.abs f2);
   (1 - o2 * finv o2) * (q - 4294967295);
   (1 - o2 * finv o2) * (rm - o1)].
Proof.
  intros U1 U2 E1 E2 sra SP NS s1 s2. unfold gen_div.
  assert (BS1 : bit s1) by apply bit_b2z. assert (IB1 : fzero (is_binary s1)) by (apply is_binary_01, BS1).
  destruct (Z.eqb_spec f2 0) as [Z2|N2].
  - assert (SR : sra = 0).
    { unfold sra. rewrite bool_decide_false; auto. intros K. specialize (SP K). lia. }
    assert (O2 : o2 = 0) by (rewrite Z2 in E2; cbn in E2; lia).
    split; [unfold u32; lia|]. split; [apply bit_b2z|]. split; [right; auto|]. split; [exact U1|]. split; [exact BS1|]. split; [unfold u32; lia|].
    fold s1. rewrite SR, Z2, O2. change (Z.abs 0) with 0.
    assert (RF : o1 - s1 * 2 ^ 32 = f1) by (unfold s1; lia).
    assert (AB : bit_to_sign s1 * f1 = Z.abs f1) by (unfold s1, bit_to_sign; destruct (Z.ltb_spec f1 0); cbn [b2z]; lia).
    rewrite RF, AB. unfold all_zero.
    repeat apply List.Forall_cons; try exact IB1; try apply Forall_nil; try (apply fz0; ring).
  - set (q := match iop i with SRA => f1 / f2 | _ => Z.quot f1 f2 end).
    set (rm := f1 - q * f2).
    assert (SPC : ((f1 =? Z.lxor (-2) 31) && (f2 =? -1))%bool = false).
    { apply andb_false_iff. change (Z.lxor (-2) 31) with (-31). destruct (Z.eqb_spec f1 (-31)), (Z.eqb_spec f2 (-1)); auto. tauto. }
    rewrite SPC.
    assert (A2 : 0 < Z.abs f2) by lia.
    (* facts about the integer quotient and remainder *)
    assert (F : Z.abs rm < Z.abs f2 /\ Z.abs q <= Z.abs f1 /\
                (sra = 0 -> Z.abs f2 * Z.abs q + Z.abs rm = Z.abs f1 /\ (rm <> 0 -> (rm <? 0) = (f1 <? 0))) /\
                (sra = 1 -> 0 <= rm /\ f2 * Z.abs q + bit_to_sign s1 * rm = Z.abs f1 /\ 0 < f2) /\
                (q <> 0 -> (q <? 0) = xorb (f1 <? 0) (f2 <? 0)) /\ bit sra).
    { destruct (decide (iop i = SRA)) as [K|K].
      - assert (SR : sra = 1) by (unfold sra; rewrite bool_decide_true; auto). specialize (SP K).
        assert (Q : q = f1 / f2) by (unfold q; rewrite K; reflexivity). unfold rm. rewrite Q.
        pose proof (Z.div_mod f1 f2 ltac:(lia)) as DM. pose proof (Z.mod_pos_bound f1 f2 SP) as MB.
        set (d := f1 / f2) in *. set (m := f1 mod f2) in *. clearbody d m.
        replace (f1 - d * f2) with m by lia.
        assert (DS : (f1 < 0 -> d < 0) /\ (0 <= f1 -> 0 <= d)) by nia.
        assert (SGN : bit_to_sign s1 * f1 = Z.abs f1) by (unfold s1, bit_to_sign; destruct (Z.ltb_spec f1 0); cbn [b2z]; lia).
        split; [lia|]. split; [nia|]. split; [lia|]. split; [|split; [|right; auto]].
        + intros _. split; [lia|]. split; [|lia]. rewrite <- SGN.
          unfold s1, bit_to_sign. destruct (Z.ltb_spec f1 0); cbn [b2z]; nia.
        + intros _. destruct (Z.ltb_spec f1 0), (Z.ltb_spec f2 0), (Z.ltb_spec d 0); auto; lia.
      - assert (SR : sra = 0) by (unfold sra; rewrite bool_decide_false; auto).
        assert (Q : q = Z.quot f1 f2) by (unfold q; destruct (iop i); congruence). unfold rm. rewrite Q.
        pose proof (Z.quot_rem' f1 f2) as QR.
        assert (QT : Z.quot f1 f2 = Z.sgn f1 * Z.sgn f2 * (Z.abs f1 / Z.abs f2)) by (rewrite Z.quot_div by auto; ring).
        assert (RT : Z.rem f1 f2 = Z.sgn f1 * (Z.abs f1 mod Z.abs f2)) by (rewrite Z.rem_mod by auto; ring).
        pose proof (Z.div_mod (Z.abs f1) (Z.abs f2) ltac:(lia)) as DM. pose proof (Z.mod_pos_bound (Z.abs f1) (Z.abs f2) A2) as MB.
        assert (DP : 0 <= Z.abs f1 / Z.abs f2) by (apply Z.div_pos; lia).
        set (d := Z.abs f1 / Z.abs f2) in *. set (m := Z.abs f1 mod Z.abs f2) in *.
        set (qq := Z.quot f1 f2) in *. set (rr := Z.rem f1 f2) in *.
        clearbody d m qq rr. replace (f1 - qq * f2) with rr by lia.
        assert (SG2 : Z.sgn f2 = 1 /\ 0 < f2 \/ Z.sgn f2 = -1 /\ f2 < 0) by lia.
        assert (DLE : d <= Z.abs f1) by nia.
        clear QR SP NS E1 E2 SPC Q q rm B1 B2 U1 U2 IB1.
        split; [|split; [|split; [|split; [lia|split; [|left; auto]]]]].
        + destruct (Z.sgn_spec f1) as [[? Hs]|[[? Hs]|[? Hs]]]; rewrite Hs in RT; lia.
        + destruct (Z.sgn_spec f1) as [[? Hs]|[[? Hs]|[? Hs]]], SG2 as [[Hs2 ?]|[Hs2 ?]]; rewrite Hs, Hs2 in QT; lia.
        + intros _. assert (F10 : f1 = 0 -> m = 0 /\ d = 0) by (intros ->; cbn in *; nia).
          assert (AQ : Z.abs qq = d /\ Z.abs rr = m).
          { destruct (Z.sgn_spec f1) as [[? Hs]|[[? Hs]|[? Hs]]], SG2 as [[Hs2 ?]|[Hs2 ?]]; rewrite Hs in QT, RT; rewrite Hs2 in QT; try lia;
              specialize (F10 ltac:(lia)); lia. }
          destruct AQ as [-> ->]. split; [lia|]. intros NZ.
          destruct (Z.sgn_spec f1) as [[? Hs]|[[? Hs]|[? Hs]]]; rewrite Hs in RT; destruct (Z.ltb_spec rr 0), (Z.ltb_spec f1 0); auto; lia.
        + intros NZ. destruct (Z.sgn_spec f1) as [[? Hs]|[[? Hs]|[? Hs]]], SG2 as [[Hs2 ?]|[Hs2 ?]]; rewrite Hs, Hs2 in QT;
            destruct (Z.ltb_spec qq 0), (Z.ltb_spec f1 0), (Z.ltb_spec f2 0); auto; lia. }
    destruct F as (FR & FQ & F0 & F1' & FS & BSR). clearbody q. clear SPC.
    assert (O2 : o2 <> 0) by (intros ->; destruct (f2 <? 0) eqn:?; cbn in E2; lia).
    assert (INV : fzero (1 - o2 * finv o2)).
    { destruct (finv_ok o2) as [K _]; [apply nz_small; unfold u32, P in *; lia|]. unfold fzero. rewrite Zminus_mod, K. reflexivity. }
    assert (WQ : wrap32 q - b2z (q <? 0) * 2 ^ 32 = q).
    { unfold wrap32. destruct (Z.ltb_spec q 0); cbn [b2z]; [|lia].
      rewrite <- (Z.mod_unique q 4294967296 (-1) (q + 4294967296)); lia. }
    assert (WR : wrap32 rm - b2z (rm <? 0) * 2 ^ 32 = rm).
    { unfold wrap32. destruct (Z.ltb_spec rm 0); cbn [b2z]; [|lia].
      rewrite <- (Z.mod_unique rm 4294967296 (-1) (rm + 4294967296)); lia. }
    assert (SL : (Z.abs f2 - 1 - Z.abs rm) mod P = Z.abs f2 - 1 - Z.abs rm) by (apply Z.mod_small; unfold P; lia).
    rewrite SL, WQ, WR.
    assert (AQ : bit_to_sign (b2z (q <? 0)) * q = Z.abs q) by (unfold bit_to_sign; destruct (Z.ltb_spec q 0); cbn [b2z]; lia).
    assert (AR : bit_to_sign (b2z (rm <? 0)) * rm = Z.abs rm) by (unfold bit_to_sign; destruct (Z.ltb_spec rm 0); cbn [b2z]; lia).
    rewrite AQ, AR.
    split; [apply wrap32_u32|]. split; [apply bit_b2z|]. split; [apply bit_b2z|]. split; [apply wrap32_u32|]. split; [apply bit_b2z|].
    split; [unfold u32; lia|]. fold s1 s2.
    assert (RMD : rm = f1 - q * f2) by reflexivity. clearbody rm. unfold all_zero.
    repeat apply List.Forall_cons; try exact IB1; try apply Forall_nil.
    + apply fz0. destruct BSR as [K|K]; rewrite K in *.
      * destruct (F0 eq_refl). lia.
      * destruct (F1' eq_refl) as (_ & H & HH). rewrite (Z.abs_eq f2) by lia. lia.
    + apply is_binary_01, bit_b2z.
    + apply fz0. destruct BSR as [K|K]; rewrite K in *; [|lia]. destruct (F0 eq_refl) as [_ H].
      destruct (Z.eq_dec rm 0) as [R0|NZ]; [rewrite R0; change (wrap32 0) with 0; ring|]. rewrite (H NZ). unfold s1. ring.
    + apply fz0. destruct BSR as [K|K]; rewrite K in *; [lia|]. destruct (F1' eq_refl) as (H & _).
      destruct (Z.ltb_spec rm 0); cbn [b2z]; lia.
    + apply fz0. destruct (Z.eqb_spec q 0) as [->|NZ]; [cbn [b2z]; lia|]. rewrite (FS NZ). unfold s1, s2.
      destruct (f1 <? 0), (f2 <? 0); reflexivity.
    + apply fz0. destruct (Z.eqb_spec q 0) as [->|NZ]; [|cbn [b2z]; lia]. unfold wrap32. rewrite Z.mod_0_l by lia. ring.
    + apply fz0. rewrite RMD. ring.
    + apply fz0. ring.
    + apply fzero_mul_l, INV.
    + apply fzero_mul_l, INV.
Qed.
End Gadgets.

(** ** What one VM step records *)
Section Step.
Variable permute : list Z -> list Z.
Variable utf8_ok : list Z -> bool.
Notation exec1 := (execute_instruction permute utf8_ok).
Notation disp := (dispatch permute utf8_ok).

Lemma exec_facts s p a i s' : state_ok s -> program_ok p -> exec1 s p = Ok (a, i, s') ->
  instruction_ok i /\ op1 a = reg s (rs1 (iargs i)) /\ op2_raw a = reg s (rs2 (iargs i)) /\
  op2 a = op2_of i (reg s (rs2 (iargs i))) /\
  exists a0 s0, disp s i = Ok (a0, s0) /\ dst_val a = dst_val a0 /\ new_pc a = pc s0 /\ amem a = amem a0 /\
    poseidon2 a = poseidon2 a0 /\ storage_device_entry a = storage_device_entry a0.
Proof.
  intros OK PO. unfold execute_instruction, current_instruction. destruct (ro_code p !! pc s) as [[j|[? ?]]|] eqn:C; try discriminate.
  assert (IO : instruction_ok j) by exact (PO _ _ C). destruct IO as (R0 & R1 & R2 & RI).
  rewrite !get_reg_ok by auto. cbn [rbind].
  destruct (disp s j) as [[a0 s0]| |] eqn:D; cbn [rbind]; try discriminate. intros E.
  injection E as E1 E2 E3. subst j. rewrite <- E1. clear E1 E3. cbn [op1 op2 op2_raw dst_val new_pc amem poseidon2 storage_device_entry].
  split; [split; auto|]. do 3 (split; auto). exists a0, s0. auto 10.
Qed.

(** the plain operations: result, next pc, no memory or device access *)
Definition plain (s : state) (a0 : aux) (s0 : state) : Prop :=
  poseidon2 a0 = None /\ storage_device_entry a0 = None.
Lemma disp_reg s i f a0 s0 : state_ok s -> instruction_ok i -> register_op s (iargs i) f = Ok (a0, s0) ->
  dst_val a0 = f (reg s (rs1 (iargs i))) (wadd (reg s (rs2 (iargs i))) (imm (iargs i))) /\ pc s0 = wadd (pc s) 4 /\
  amem a0 = None /\ plain s a0 s0.
Proof.
  intros OK (R0 & R1 & R2 & RI). unfold register_op. rewrite !get_reg_ok by auto. cbn [rbind].
  rewrite set_reg_ok by auto. cbn [rbind]. intros E. injection E as <- <-. unfold aux_dst, plain, bump_pc, set_pc. cbn [dst_val amem poseidon2 storage_device_entry pc upd_pc].
  destruct (wreg_fields s (rd (iargs i)) (f (reg s (rs1 (iargs i))) (wadd (reg s (rs2 (iargs i))) (imm (iargs i))))) as (-> & _). auto.
Qed.
Lemma disp_load s i n f a0 s0 : state_ok s -> instruction_ok i -> memory_load s (iargs i) n f = Ok (a0, s0) ->
  let addr := wadd (reg s (rs2 (iargs i))) (imm (iargs i)) in
  let rd := f (map (load_u8 s) (addr_range addr 4)) in
  dst_val a0 = snd rd /\ pc s0 = wadd (pc s) 4 /\ amem a0 = Some (mkMemEntry addr (fst rd)) /\ plain s a0 s0.
Proof.
  intros OK (R0 & R1 & R2 & RI). unfold memory_load. rewrite !get_reg_ok by auto. cbn [rbind]. cbv zeta.
  destruct (f _) as [raw d]. rewrite set_reg_ok by auto. cbn [rbind]. intros E. injection E as <- <-.
  unfold plain, bump_pc, set_pc. cbn [dst_val amem poseidon2 storage_device_entry pc upd_pc fst snd].
  destruct (wreg_fields s (rd (iargs i)) d) as (-> & _). auto.
Qed.
Lemma disp_branch s i f a0 s0 : state_ok s -> instruction_ok i -> branch_op s (iargs i) f = Ok (a0, s0) ->
  pc s0 = (if f (reg s (rs1 (iargs i))) (reg s (rs2 (iargs i))) then imm (iargs i) else wadd (pc s) 4) /\
  dst_val a0 = 0 /\ amem a0 = None /\ plain s a0 s0.
Proof.
  intros OK (R0 & R1 & R2 & RI). unfold branch_op. rewrite !get_reg_ok by auto. cbn [rbind]. intros E. injection E as <- <-.
  unfold plain, aux_default. cbn [dst_val amem poseidon2 storage_device_entry]. split; [|auto].
  destruct (f _ _); reflexivity.
Qed.
Lemma disp_jalr s i a0 s0 : state_ok s -> instruction_ok i -> jalr s (iargs i) = Ok (a0, s0) ->
  pc s0 = Z.land (wadd (reg s (rs1 (iargs i))) (imm (iargs i))) 4294967294 /\
  dst_val a0 = wadd (pc s) 4 /\ amem a0 = None /\ plain s a0 s0.
Proof.
  intros OK (R0 & R1 & R2 & RI). unfold jalr. rewrite !get_reg_ok by auto. cbn [rbind].
  rewrite set_reg_len by (auto; apply OK). cbn [rbind]. intros E. injection E as <- <-.
  unfold plain, aux_dst. cbn [dst_val amem poseidon2 storage_device_entry]. split; [|auto].
  match goal with |- pc (wreg ?x ?y ?z) = _ => destruct (wreg_fields x y z) as (-> & _) end. reflexivity.
Qed.
Lemma disp_store s i n a0 s0 : state_ok s -> instruction_ok i -> store s (iargs i) n = Ok (a0, s0) ->
  let addr := wadd (reg s (rs2 (iargs i))) (imm (iargs i)) in
  let raw := Z.land (reg s (rs1 (iargs i))) (Z.shiftr 4294967295 (32 - 8 * Z.of_nat n)) in
  pc s0 = wadd (pc s) 4 /\ dst_val a0 = raw /\ amem a0 = Some (mkMemEntry addr raw) /\ plain s a0 s0.
Proof.
  intros OK (R0 & R1 & R2 & RI). unfold store. rewrite !get_reg_ok by auto. cbn [rbind]. cbv zeta.
  match goal with |- context [store_bytes s ?l] => destruct (store_bytes_spec l s) as [(? & _ & _ & ->)|[_ ->]] end; cbn [rbind]; [discriminate|].
  intros E. injection E as <- <-. unfold plain, bump_pc, set_pc. cbn [dst_val amem poseidon2 storage_device_entry pc upd_pc].
  split; [|auto]. match goal with |- context [puts s ?l] => destruct (puts_same l s) as (-> & _) end. reflexivity.
Qed.

Lemma u32_canon x : u32 x -> canon x. Proof. unfold u32, canon, P. lia. Qed.
Lemma disp_ecall s a0 s0 : state_ok s -> ecall permute utf8_ok s = Ok (a0, s0) -> In (reg s REG_A0) [0; 2; 3; 4; 5; 6; 7; 8; 9] ->
  amem a0 = None /\ u32 (dst_val a0) /\ u32 (pc s0) /\
  ((reg s REG_A0 = 0 /\ poseidon2 a0 = None /\ storage_device_entry a0 = None) \/
   (reg s REG_A0 = 3 /\ (exists x, poseidon2 a0 = Some x) /\ storage_device_entry a0 = None) \/
   (exists e, read_call (reg s REG_A0) = Some (sd_opcode e) /\ poseidon2 a0 = None /\ storage_device_entry a0 = Some e /\
      u32 (sd_addr e) /\ u32 (Z.of_nat (length (sd_data e))))).
Proof.
  intros OK E I. assert (R10 : is_reg REG_A0) by (unfold is_reg, REG_A0; lia). assert (R11 : is_reg REG_A1) by (unfold is_reg, REG_A1; lia).
  assert (R12 : is_reg REG_A2) by (unfold is_reg, REG_A2; lia). assert (R13 : is_reg REG_A3) by (unfold is_reg, REG_A3; lia).
  assert (RD : forall o, o <> SdNone -> read_call (reg s REG_A0) = Some o -> ecall_read s o = Ok (a0, s0) ->
    amem a0 = None /\ u32 (dst_val a0) /\ u32 (pc s0) /\ exists e, read_call (reg s REG_A0) = Some (sd_opcode e) /\ poseidon2 a0 = None /\ storage_device_entry a0 = Some e /\
      u32 (sd_addr e) /\ u32 (Z.of_nat (length (sd_data e)))).
  { intros o No Ro. unfold ecall_read. rewrite !get_reg_ok by auto. cbn [rbind].
    pose proof (reg_u32 s REG_A2 OK R12) as UN. pose proof (reg_u32 s REG_A1 OK R11) as UB.
    destruct (fetch_spec s o (reg s REG_A2) OK ltac:(unfold u32 in UN; lia) No) as (data & s1 & -> & _ & OK1 & _ & L). cbn [rbind fst snd].
    match goal with |- context [store_bytes ?x ?l] => destruct (store_bytes_spec l x) as [(? & _ & _ & ->)|[_ ->]] end; cbn [rbind]; [discriminate|].
    intros H. injection H as <- <-. cbn [amem dst_val poseidon2 storage_device_entry].
    assert (UL : u32 (Z.of_nat (length data))) by (unfold u32 in *; lia).
    split; auto. split; auto. split; [apply wrap32_u32|]. eexists. split; [|split; [reflexivity|split; [reflexivity|]]]; cbn [sd_opcode sd_addr sd_data]; auto. }
  unfold ecall in E. rewrite get_reg_ok in E by auto. cbn [rbind] in E.
  cbn [In] in I. decompose [or] I; try tauto; match goal with H : _ = reg s REG_A0 |- _ => rename H into K end; rewrite <- K in E, RD |- *;
    cbn [Z.eqb Pos.eqb] in E; unfold read_call in RD |- *; cbn [Z.eqb Pos.eqb] in RD |- *;
    try (match type of E with ecall_read s ?o = _ => destruct (RD o ltac:(discriminate) eq_refl E) as (? & ? & ? & ?) end; auto 10).
  - unfold ecall_halt in E. injection E as <- <-. cbn. split; auto. split; [unfold u32; lia|]. split; [apply OK|]. auto.
  - unfold ecall_poseidon2 in E. rewrite !get_reg_ok in E by auto. cbn [rbind] in E.
    destruct (_ && _) in E; [discriminate|]. destruct (hash_n_to_m_no_pad _ _) in E; cbn [rbind] in E; try discriminate.
    destruct (negb _) in E; [discriminate|].
    match type of E with context [store_bytes ?x ?l] => destruct (store_bytes_spec l x) as [(? & _ & _ & K2)|[_ K2]]; rewrite K2 in E end;
      cbn [rbind] in E; [discriminate|]. injection E as <- <-. cbn. split; auto. split; [unfold u32; lia|]. split; [apply wrap32_u32|]. right. left. eauto.
Qed.
End Step.
