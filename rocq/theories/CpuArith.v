(** Integer facts behind the CPU constraints, stated without the CPU row. *)
From Verif Require Import CircuitSpec TableProofs.
Open Scope Z_scope.
Ltac Zify.zify_post_hook ::= Z.div_mod_to_equations.

Lemma land_cons x y a b : bit a -> bit b -> Z.land (x * 2 + a) (y * 2 + b) = Z.land x y * 2 + a * b.
Proof.
  intros A B. apply Z.bits_inj'. intros n Hn. assert (bit (a * b)) by (destruct A as [->| ->], B as [->| ->]; unfold bit; lia).
  rewrite Z.land_spec, !testbit_cons by auto. destruct (Z.eqb_spec n 0); [|rewrite Z.land_spec; reflexivity].
  destruct A as [->| ->], B as [->| ->]; reflexivity.
Qed.
Lemma lxor_land_sum_aux : forall n a b, 0 <= a < 2 ^ Z.of_nat n -> 0 <= b -> a + b = Z.lxor a b + 2 * Z.land a b.
Proof.
  induction n as [|n IH]; intros a b Ha Hb.
  - cbn in Ha. replace a with 0 by lia. rewrite Z.lxor_0_l, Z.land_0_l. lia.
  - rewrite Nat2Z.inj_succ, Z.pow_succ_r in Ha by lia.
    assert (Ea : a = a / 2 * 2 + a mod 2) by lia. assert (Eb : b = b / 2 * 2 + b mod 2) by lia.
    assert (Ba : bit (a mod 2)) by (unfold bit; lia). assert (Bb : bit (b mod 2)) by (unfold bit; lia).
    specialize (IH (a / 2) (b / 2) ltac:(lia) ltac:(lia)).
    rewrite Ea, Eb at 2 3. rewrite land_cons by auto.
    rewrite (lxor_cons (a / 2) (b / 2) (a mod 2) (b mod 2) ((a mod 2 + b mod 2) mod 2)) by (auto; unfold bit in *; lia).
    destruct Ba as [Ba|Ba], Bb as [Bb|Bb]; rewrite Ba, Bb in *; change ((1 + 1) mod 2) with 0; cbn [Z.add Z.mul Z.modulo Z.div_eucl]; lia.
Qed.
Lemma lxor_land_sum a b : 0 <= a -> 0 <= b -> a + b - Z.lxor a b = 2 * Z.land a b.
Proof.
  intros Ha Hb. pose proof (lxor_land_sum_aux (Z.to_nat a) a b) as H. rewrite Z2Nat.id in H by auto.
  assert (a < 2 ^ a) by (apply Z.pow_gt_lin_r; lia). lia.
Qed.
Lemma lxor_lor_sum a b : 0 <= a -> 0 <= b -> a + b + Z.lxor a b = 2 * Z.lor a b.
Proof.
  intros Ha Hb. pose proof (lxor_land_sum a b Ha Hb) as H.
  assert (E : Z.lor a b = Z.lxor a b + Z.land a b); [|lia].
  rewrite Z.add_nocarry_lxor.
  - apply Z.bits_inj'. intros n Hn. rewrite Z.lor_spec, !Z.lxor_spec, Z.land_spec.
    destruct (Z.testbit a n), (Z.testbit b n); reflexivity.
  - apply Z.bits_inj'. intros n Hn. rewrite Z.land_spec, Z.lxor_spec, Z.land_spec, Z.bits_0.
    destruct (Z.testbit a n), (Z.testbit b n); reflexivity.
Qed.
Lemma land31 x : 0 <= x -> Z.land 31 x = x mod 32.
Proof. intros. rewrite Z.land_comm. change 31 with (Z.ones 5). rewrite Z.land_ones by lia. reflexivity. Qed.

(** congruence modulo the prime of small numbers is equality *)
Lemma fzero_eq x y : - P < x - y < P -> fzero (x - y) -> x = y.
Proof. intros B H. apply fzero_small in H; lia. Qed.
Lemma fzero_mul_nz a b : ~ fzero a -> fzero (a * b) -> fzero b.
Proof. intros N H. apply fzero_mul in H as [H|H]; tauto. Qed.
Lemma nz_small a : a <> 0 -> - P < a < P -> ~ fzero a.
Proof. intros N B H. apply N, fzero_small; auto. Qed.

(** ** Multiplication *)
(** limbs [high], [low] and sign [ps] of the product of two numbers below 2^32 in absolute value *)
Lemma mul_core f1 f2 ps high low inv :
  Z.abs f1 < 2 ^ 32 -> Z.abs f2 < 2 ^ 32 -> bit ps -> u32 high -> u32 low ->
  fzero ((1 - ps) * (high * 2 ^ 32 + low - Z.abs f1 * Z.abs f2)) ->
  fzero (ps * (2 ^ 32 * (2 ^ 32 - high) - low - Z.abs f1 * Z.abs f2)) ->
  fzero ((1 - ps) * (1 - (4294967295 - high) * inv)) ->
  fzero (ps * (1 - high * inv)) ->
  (Z.abs f1 * Z.abs f2 <> 0 -> bit_to_sign ps = Z.sgn f1 * Z.sgn f2) ->
  f1 * f2 = (high - ps * 2 ^ 32) * 2 ^ 32 + low.
Proof.
  intros A1 A2 B Hh Hl C1 C2 C3 C4 S. change (2 ^ 32) with 4294967296 in *. unfold u32 in *.
  assert (AB : 0 <= Z.abs f1 * Z.abs f2 <= 4294967295 * 4294967295) by nia.
  assert (SG : f1 * f2 = Z.sgn f1 * Z.sgn f2 * (Z.abs f1 * Z.abs f2)).
  { transitivity ((Z.abs f1 * Z.sgn f1) * (Z.abs f2 * Z.sgn f2)); [rewrite !Z.abs_sgn; reflexivity|ring]. }
  set (m := Z.abs f1 * Z.abs f2) in *. unfold bit_to_sign in S. destruct B as [->| ->].
  - rewrite Z.sub_0_r, Z.mul_1_l in C1, C3.
    assert (N : high <> 4294967295).
    { intros ->. replace (1 - (4294967295 - 4294967295) * inv) with 1 in C3 by lia. discriminate C3. }
    apply fzero_eq in C1; [|unfold P; lia]. rewrite SG. destruct (Z.eq_dec m 0) as [E|E]; [rewrite E in *; lia|].
    rewrite <- (S E). lia.
  - rewrite Z.mul_1_l in C2, C4.
    assert (N : high <> 0).
    { intros ->. rewrite Z.mul_0_l in C4. discriminate C4. }
    apply fzero_eq in C2; [|unfold P; lia]. rewrite SG. destruct (Z.eq_dec m 0) as [E|E]; [exfalso; lia|].
    rewrite <- (S E). lia.
Qed.
Lemma mul_low f1 f2 high low ps : u32 low -> f1 * f2 = (high - ps * 2 ^ 32) * 2 ^ 32 + low -> low = word (f1 * f2).
Proof.
  intros Hl E. rewrite E. unfold word, M32, u32 in *. rewrite Z.add_comm, Z.mod_add by lia. rewrite Z.mod_small; lia.
Qed.
Lemma mul_high f1 f2 high low ps : u32 low -> u32 high -> f1 * f2 = (high - ps * 2 ^ 32) * 2 ^ 32 + low ->
  high = word (f1 * f2 / M32).
Proof.
  intros Hl Hh E. rewrite E. unfold word, M32, u32 in *. rewrite Z.add_comm, Z.div_add by lia.
  rewrite (Z.div_small low) by lia. rewrite Z.add_0_l. replace (high - ps * 2 ^ 32) with (high + - ps * 2 ^ 32) by lia.
  rewrite Z.mod_add by lia. rewrite Z.mod_small; lia.
Qed.

(** ** Division *)
(** The sign-magnitude division forced by the constraints on non-SRA rows with non-zero divisor *)
Lemma abs_rem rv rs : u32 rv -> bit rs -> bit_to_sign rs * (rv - rs * 2 ^ 32) = Z.abs (rv - rs * 2 ^ 32).
Proof. intros H [->| ->]; unfold bit_to_sign, u32 in *; lia. Qed.

Lemma div_core f1 f2 q qs skip rv rs slack s1 s2 :
  f2 <> 0 -> Z.abs f1 < 2 ^ 32 -> Z.abs f2 < 2 ^ 32 -> s1 = b2z (f1 <? 0) -> s2 = b2z (f2 <? 0) ->
  (f1 < 0 \/ f2 < 0 -> Z.abs f2 <= 2 ^ 31) ->
  u32 q -> u32 rv -> u32 slack -> bit rs -> (fzero (1 - skip) -> bit qs) -> canon qs ->
  let qf := q - qs * 2 ^ 32 in
  let rf := rv - rs * 2 ^ 32 in
  fzero (Z.abs f2 * (bit_to_sign qs * qf) + bit_to_sign rs * rf - Z.abs f1) ->
  fzero (rv * (s1 - rs)) ->
  fzero ((1 - skip) * (bit_to_sign qs - bit_to_sign s1 * bit_to_sign s2)) ->
  fzero (skip * f2 * (q + qf)) ->
  fzero (Z.abs f2 * (bit_to_sign rs * rf + 1 + slack - Z.abs f2)) ->
  q = word (Z.quot f1 f2) /\ rv = word (Z.rem f1 f2).
Proof.
  intros N2 A1 A2 S1 S2 AS Hq Hrv Hsl Brs Bqs Cqs qf rf E1 E2 E3 E4 E5.
  assert (Nf2 : ~ fzero f2) by (apply nz_small; [auto|unfold P; lia]).
  assert (Nf2a : ~ fzero (Z.abs f2)) by (apply nz_small; [lia|unfold P; lia]).
  apply fzero_mul_nz in E5; auto. unfold rf in *. rewrite abs_rem in * by auto.
  assert (RB : Z.abs (rv - rs * 2 ^ 32) <= 2 ^ 32) by (unfold u32, bit in *; lia).
  assert (R1 : Z.abs (rv - rs * 2 ^ 32) + 1 + slack = Z.abs f2).
  { apply fzero_eq; [unfold P, u32 in *; lia|]. exact E5. }
  clear E5. unfold u32 in *.
  assert (RS : rv = 0 /\ rs = 0 \/ rs = s1).
  { apply fzero_mul in E2 as [E2|E2].
    - left. apply fzero_small in E2; [|unfold P; lia]. split; auto. destruct Brs as [->| ->]; auto. exfalso. lia.
    - right. apply fzero_eq in E2; auto. unfold P. destruct Brs as [->| ->], (f1 <? 0); cbn in S1; lia. }
  assert (QB : qs = 0 \/ qs = 1).
  { destruct (decide (fzero (1 - skip))) as [K|K]; [apply Bqs; auto|].
    apply fzero_mul_nz in E3; auto. clear -E3 S1 S2 Cqs. unfold bit_to_sign in E3.
    assert (X : exists x, (x = 0 \/ x = 1) /\ fzero (2 * (x - qs))).
    { destruct (f1 <? 0), (f2 <? 0); cbn in S1, S2; subst.
      - exists 0. split; auto. replace (2 * (0 - qs)) with (1 - 2 * qs - (1 - 2 * 1) * (1 - 2 * 1)) by lia. auto.
      - exists 1. split; auto. replace (2 * (1 - qs)) with (1 - 2 * qs - (1 - 2 * 1) * (1 - 2 * 0)) by lia. auto.
      - exists 1. split; auto. replace (2 * (1 - qs)) with (1 - 2 * qs - (1 - 2 * 0) * (1 - 2 * 1)) by lia. auto.
      - exists 0. split; auto. replace (2 * (0 - qs)) with (1 - 2 * qs - (1 - 2 * 0) * (1 - 2 * 0)) by lia. auto. }
    destruct X as (x & Hx & E). apply fzero_mul_nz in E; [|discriminate].
    apply fzero_eq in E; [lia|]. unfold canon, P in *. lia. }
  assert (QA : bit_to_sign qs * qf = Z.abs qf) by (unfold qf, bit_to_sign; destruct QB as [->| ->]; lia).
  rewrite QA in E1.
  (* the sign of the quotient, or the exceptional cases *)
  assert (K : qs = Z.lxor s1 s2 \/ (qs = 0 /\ q = 0) \/ (qs = 1 /\ q = 2 ^ 31)).
  { destruct (decide (fzero (1 - skip))) as [K|K].
    - right. assert (Nsk : ~ fzero skip).
      { intros Y. pose proof (fzero_add _ _ K Y) as W. replace (1 - skip + skip) with 1 in W by lia. discriminate W. }
      rewrite <- Z.mul_assoc in E4. apply fzero_mul_nz in E4; auto. apply fzero_mul_nz in E4; auto.
      unfold qf in E4. destruct QB as [->| ->].
      + left. split; auto. replace (q + (q - 0 * 2 ^ 32)) with (2 * q) in E4 by lia. apply fzero_small in E4; unfold P; lia.
      + right. split; auto. replace (q + (q - 1 * 2 ^ 32)) with (2 * (q - 2 ^ 31)) in E4 by lia.
        apply fzero_small in E4; unfold P; lia.
    - left. apply fzero_mul_nz in E3; auto. clear -E3 QB S1 S2. unfold bit_to_sign in E3.
      destruct (f1 <? 0), (f2 <? 0), QB as [->| ->]; cbn in S1, S2; subst; try reflexivity; vm_compute in E3; discriminate E3. }
  (* the equation of absolute values holds over the integers *)
  assert (Q1 : Z.abs f2 * Z.abs qf + Z.abs (rv - rs * 2 ^ 32) = Z.abs f1).
  { assert (QBd : Z.abs qf <= 2 ^ 32) by (unfold qf; destruct QB as [->| ->]; lia).
    assert (0 <= Z.abs f2 * Z.abs qf) by nia.
    assert (Z.abs f2 * Z.abs qf <= (2 ^ 32 - 1) * (2 ^ 32 - 1)).
    { destruct (decide (f1 < 0 \/ f2 < 0)) as [Y|Y].
      - specialize (AS Y). clear -QBd AS. nia.
      - assert (Z.abs qf <= 2 ^ 32 - 1); [|clear -H0 A2; nia].
        replace (f1 <? 0) with false in S1 by (symmetry; apply Z.ltb_ge; lia).
        replace (f2 <? 0) with false in S2 by (symmetry; apply Z.ltb_ge; lia). cbn in S1, S2. subst s1 s2.
        clear -K QB Hq. unfold qf. destruct K as [K|[[K1 K2]|[K1 K2]]]; [change (Z.lxor 0 0) with 0 in K| |]; lia. }
    apply fzero_eq; [unfold P; lia|]. exact E1. }
  assert (QR : Z.abs qf = Z.abs f1 / Z.abs f2 /\ Z.abs (rv - rs * 2 ^ 32) = Z.abs f1 mod Z.abs f2).
  { split; [apply Z.div_unique with (Z.abs (rv - rs * 2 ^ 32))|apply Z.mod_unique with (Z.abs qf)]; lia. }
  destruct QR as [QD RM].
  assert (QT : Z.quot f1 f2 = Z.sgn f1 * Z.sgn f2 * (Z.abs f1 / Z.abs f2)) by (rewrite Z.quot_div by auto; ring).
  assert (RT : Z.rem f1 f2 = Z.sgn f1 * (Z.abs f1 mod Z.abs f2)) by (rewrite Z.rem_mod by auto; ring).
  rewrite QT, RT, <- QD, <- RM. clear QT RT QD RM E1 E2 E3 E4 QA. unfold word, M32.
  set (A := Z.abs f2 * Z.abs qf) in *.
  assert (SG1 : Z.sgn f1 = 1 - 2 * s1 \/ f1 = 0 /\ s1 = 0) by (clear -S1; destruct (Z.ltb_spec f1 0); cbn in S1; lia).
  assert (SG2 : Z.sgn f2 = 1 - 2 * s2) by (clear -S2 N2; destruct (Z.ltb_spec f2 0); cbn in S2; lia).
  assert (BS1 : s1 = 0 \/ s1 = 1) by (clear -S1; destruct (f1 <? 0); cbn in S1; lia).
  assert (BS2 : s2 = 0 \/ s2 = 1) by (clear -S2; destruct (f2 <? 0); cbn in S2; lia).
  split.
  - (* quotient *)
    destruct SG1 as [SG1|[F1 SG1]].
    2:{ rewrite F1 in *. cbn in *. assert (Z.abs qf = 0) by (unfold A in Q1; nia).
        unfold qf in *. rewrite Z.mod_0_l by lia. destruct QB as [->| ->]; lia. }
    rewrite SG1, SG2.
    destruct K as [K|[[K1 K2]|[K1 K2]]].
    + assert (QS : (1 - 2 * s1) * (1 - 2 * s2) = 1 - 2 * qs) by (rewrite K; destruct BS1 as [->| ->], BS2 as [->| ->]; reflexivity).
      rewrite QS. unfold qf in *. destruct QB as [QB|QB]; rewrite QB in *.
      * symmetry. replace ((1 - 2 * 0) * Z.abs (q - 0 * 2 ^ 32)) with q by lia. apply Z.mod_small. lia.
      * replace ((1 - 2 * 1) * Z.abs (q - 1 * 2 ^ 32)) with (q + (-1) * 2 ^ 32) by lia.
        rewrite Z.mod_add by lia. symmetry. apply Z.mod_small. lia.
    + subst q qs. unfold qf. cbn. rewrite Z.mul_0_r. reflexivity.
    + subst q qs. unfold qf in *. cbn in *. destruct BS1 as [->| ->], BS2 as [->| ->]; reflexivity.
  - (* remainder *)
    destruct RS as [[R0 R2]|R2]; [subst rv rs; cbn; rewrite Z.mul_0_r; reflexivity|].
    subst rs. destruct SG1 as [SG1|[F1 SG1]].
    + rewrite SG1. destruct BS1 as [B|B]; rewrite B in *.
      * replace ((1 - 2 * 0) * Z.abs (rv - 0 * 2 ^ 32)) with rv by lia. symmetry. apply Z.mod_small. lia.
      * replace ((1 - 2 * 1) * Z.abs (rv - 1 * 2 ^ 32)) with (rv + (-1) * 2 ^ 32) by lia.
        rewrite Z.mod_add by lia. symmetry. apply Z.mod_small. lia.
    + rewrite F1 in *. cbn in *. rewrite SG1 in *. assert (0 <= A) by (unfold A; nia). rewrite Z.mod_0_l by lia. lia.
Qed.

(** Arithmetic right shift: floor division by a positive power of two, the remainder being non-negative *)
Lemma sra_core f1 f2 q qs skip rv slack s1 :
  0 < f2 <= 2 ^ 31 -> Z.abs f1 <= 2 ^ 31 -> (0 <= f1 -> f1 < 2 ^ 31) -> s1 = b2z (f1 <? 0) ->
  u32 q -> u32 rv -> u32 slack -> (fzero (1 - skip) -> bit qs) -> canon qs ->
  let qf := q - qs * 2 ^ 32 in
  fzero (f2 * (bit_to_sign qs * qf) + bit_to_sign s1 * rv - Z.abs f1) ->
  fzero ((1 - skip) * (bit_to_sign qs - bit_to_sign s1)) ->
  fzero (skip * f2 * (q + qf)) ->
  fzero (f2 * (rv + 1 + slack - f2)) ->
  q = word (f1 / f2).
Proof.
  intros B2 A1 A1' S1 Hq Hrv Hsl Bqs Cqs qf E1 E3 E4 E5.
  assert (Nf2 : ~ fzero f2) by (apply nz_small; [lia|unfold P; lia]).
  apply fzero_mul_nz in E5; auto. unfold u32 in *.
  assert (R1 : rv + 1 + slack = f2) by (apply fzero_eq; [unfold P; lia|exact E5]). clear E5.
  assert (BS1 : s1 = 0 \/ s1 = 1) by (clear -S1; destruct (f1 <? 0); cbn in S1; lia).
  assert (QB : qs = 0 \/ qs = 1).
  { destruct (decide (fzero (1 - skip))) as [K|K]; [apply Bqs; auto|].
    apply fzero_mul_nz in E3; auto. unfold bit_to_sign in E3.
    replace (1 - 2 * qs - (1 - 2 * s1)) with (2 * (s1 - qs)) in E3 by lia. apply fzero_mul_nz in E3; [|discriminate].
    apply fzero_eq in E3; [lia|]. unfold canon, P in *. lia. }
  assert (QA : bit_to_sign qs * qf = Z.abs qf) by (unfold qf, bit_to_sign; destruct QB as [->| ->]; lia).
  rewrite QA in E1.
  assert (K : qs = s1 \/ (qs = 0 /\ q = 0) \/ (qs = 1 /\ q = 2 ^ 31)).
  { destruct (decide (fzero (1 - skip))) as [K|K].
    - right. assert (Nsk : ~ fzero skip).
      { intros Y. pose proof (fzero_add _ _ K Y) as W. replace (1 - skip + skip) with 1 in W by lia. discriminate W. }
      rewrite <- Z.mul_assoc in E4. apply fzero_mul_nz in E4; auto. apply fzero_mul_nz in E4; auto.
      unfold qf in E4. destruct QB as [->| ->].
      + left. split; auto. replace (q + (q - 0 * 2 ^ 32)) with (2 * q) in E4 by lia. apply fzero_small in E4; unfold P; lia.
      + right. split; auto. replace (q + (q - 1 * 2 ^ 32)) with (2 * (q - 2 ^ 31)) in E4 by lia.
        apply fzero_small in E4; unfold P; lia.
    - left. apply fzero_mul_nz in E3; auto. unfold bit_to_sign in E3.
      replace (1 - 2 * qs - (1 - 2 * s1)) with (2 * (s1 - qs)) in E3 by lia. apply fzero_mul_nz in E3; [|discriminate].
      apply fzero_eq in E3; [lia|unfold P; lia]. }
  assert (QBd : 0 <= Z.abs qf <= 2 ^ 32) by (unfold qf; destruct QB as [->| ->]; lia).
  assert (FB : 0 <= f2 * Z.abs qf <= 2 ^ 31 * 2 ^ 32) by (clear -QBd B2; nia).
  assert (Q1 : f2 * Z.abs qf + bit_to_sign s1 * rv = Z.abs f1).
  { apply fzero_eq; [|exact E1]. unfold P, bit_to_sign. destruct BS1 as [->| ->]; lia. }
  clear E1 E3 E4 QA.
  assert (D : f1 / f2 = (1 - 2 * s1) * Z.abs qf).
  { symmetry. apply Z.div_unique with rv; [lia|]. unfold bit_to_sign in Q1.
    destruct (Z.ltb_spec f1 0); cbn in S1; subst s1; lia. }
  rewrite D. unfold word, M32, qf in *.
  destruct K as [K|[[K1 K2]|[K1 K2]]].
  - rewrite <- K. destruct QB as [->| ->].
    + replace ((1 - 2 * 0) * Z.abs (q - 0 * 2 ^ 32)) with q by lia. symmetry. apply Z.mod_small. lia.
    + replace ((1 - 2 * 1) * Z.abs (q - 1 * 2 ^ 32)) with (q + (-1) * 2 ^ 32) by lia.
      rewrite Z.mod_add by lia. symmetry. apply Z.mod_small. lia.
  - subst q qs. cbn. rewrite Z.mul_0_r. reflexivity.
  - subst q qs. destruct BS1 as [->| ->]; reflexivity.
Qed.

(** ** Comparison *)
Lemma compare_core f1 f2 nd inv :
  Z.abs f1 < 2 ^ 32 -> Z.abs f2 < 2 ^ 32 -> canon nd ->
  fzero (is_binary nd) -> fzero ((f1 - f2) * (1 - nd)) -> fzero ((f1 - f2) * inv - nd) ->
  nd = b2z (negb (f1 =? f2)).
Proof.
  intros A1 A2 Cn B E1 E2. apply binary_canon in B; auto.
  destruct (Z.eqb_spec f1 f2) as [->|N]; cbn [negb b2z].
  - replace ((f2 - f2) * inv - nd) with (- nd) in E2 by lia. apply fzero_small in E2; unfold P; lia.
  - apply fzero_mul_nz in E1; [apply fzero_small in E1; unfold P; lia|]. apply nz_small; unfold P; lia.
Qed.
Lemma less_than_core f1 f2 lt ad nd :
  Z.abs f1 < 2 ^ 32 -> Z.abs f2 < 2 ^ 32 -> canon lt -> u32 ad -> nd = b2z (negb (f1 =? f2)) ->
  fzero (is_binary lt) -> fzero ((1 - lt) * (ad - (f1 - f2))) -> fzero (lt * (ad + (f1 - f2))) -> fzero (lt * (1 - nd)) ->
  lt = b2z (f1 <? f2).
Proof.
  intros A1 A2 Cl Ha Hn B E1 E2 E3. apply binary_canon in B; auto. unfold u32 in Ha. destruct B as [->| ->].
  - rewrite Z.sub_0_r, Z.mul_1_l in E1. apply fzero_eq in E1; [|unfold P; lia]. destruct (Z.ltb_spec f1 f2); cbn; lia.
  - rewrite Z.mul_1_l in E2, E3. apply fzero_small in E2; [|unfold P; lia].
    assert (nd = 1) by (apply fzero_small in E3; [lia|]; rewrite Hn; destruct (f1 =? f2); cbn; unfold P; lia).
    destruct (Z.eqb_spec f1 f2); [subst nd; discriminate|]. destruct (Z.ltb_spec f1 f2); cbn; lia.
Qed.
