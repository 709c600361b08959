(** Proofs about the decoder. *)
From Verif Require Import RunnerSpec.
Open Scope Z_scope.
Ltac Zify.zify_post_hook ::= Z.div_mod_to_equations.

(** A word split at every boundary any format uses. *)
Definition compose (f0 f1 f2 f3 f4 f5 f6 f7 f8 : Z) : Z :=
  f0 + 128 * f1 + 256 * f2 + 4096 * f3 + 32768 * f4 + 1048576 * f5 + 2097152 * f6 + 33554432 * f7
  + 2147483648 * f8.
Definition fields_ok (f0 f1 f2 f3 f4 f5 f6 f7 f8 : Z) : Prop :=
  0 <= f0 < 128 /\ 0 <= f1 < 2 /\ 0 <= f2 < 16 /\ 0 <= f3 < 8 /\ 0 <= f4 < 32 /\ 0 <= f5 < 2 /\
  0 <= f6 < 16 /\ 0 <= f7 < 64 /\ 0 <= f8 < 2.

Lemma bit_range_div w msb lsb : 0 <= lsb -> bit_range w msb lsb = (w / 2 ^ lsb) mod 2 ^ (msb - lsb + 1).
Proof. intros; unfold bit_range. rewrite Z.shiftr_div_pow2; auto. Qed.

Lemma divmod_unique w k m lo mid hi :
  0 <= lo < k -> 0 <= mid < m -> w = lo + k * mid + k * m * hi -> (w / k) mod m = mid.
Proof.
  intros Hlo Hmid ->.
  replace (lo + k * mid + k * m * hi) with (lo + (mid + m * hi) * k) by ring.
  rewrite Z.div_add by lia. rewrite (Z.div_small lo k) by lia.
  rewrite Z.add_0_l. replace (mid + m * hi) with (mid + hi * m) by ring.
  rewrite Z.mod_add by lia. apply Z.mod_small; lia.
Qed.

Section Fields.
  Variables f0 f1 f2 f3 f4 f5 f6 f7 f8 : Z.
  Hypothesis OK : fields_ok f0 f1 f2 f3 f4 f5 f6 f7 f8.
  Let w := compose f0 f1 f2 f3 f4 f5 f6 f7 f8.

  Ltac fld lo hi :=
    rewrite bit_range_div by lia;
    match goal with |- (_ / ?a) mod ?b = _ =>
      let a' := eval vm_compute in a in let b' := eval vm_compute in b in
      change a with a'; change b with b' end;
    unfold fields_ok in OK; apply (divmod_unique _ _ _ lo _ hi); unfold w, compose; lia.

  Lemma br_6_0 : bit_range w 6 0 = f0.
  Proof. fld 0 (f1 + 2*f2 + 32 * f3 + 256 * f4 + 8192 * f5 + 16384 * f6 + 262144 * f7 + 16777216 * f8). Qed.
  Lemma br_11_7 : bit_range w 11 7 = f1 + 2 * f2.
  Proof. fld f0 (f3 + 8 * f4 + 256 * f5 + 512 * f6 + 8192 * f7 + 524288 * f8). Qed.
  Lemma br_7_7 : bit_range w 7 7 = f1.
  Proof. fld f0 (f2 + 16 * f3 + 128 * f4 + 4096 * f5 + 8192 * f6 + 131072 * f7 + 8388608 * f8). Qed.
  Lemma br_11_8 : bit_range w 11 8 = f2.
  Proof. fld (f0 + 128 * f1) (f3 + 8 * f4 + 256 * f5 + 512 * f6 + 8192 * f7 + 524288 * f8). Qed.
  Lemma br_14_12 : bit_range w 14 12 = f3.
  Proof. fld (f0 + 128 * f1 + 256 * f2) (f4 + 32 * f5 + 64 * f6 + 1024 * f7 + 65536 * f8). Qed.
  Lemma br_19_12 : bit_range w 19 12 = f3 + 8 * f4.
  Proof. fld (f0 + 128 * f1 + 256 * f2) (f5 + 2 * f6 + 32 * f7 + 2048 * f8). Qed.
  Lemma br_19_15 : bit_range w 19 15 = f4.
  Proof. fld (f0 + 128 * f1 + 256 * f2 + 4096 * f3) (f5 + 2 * f6 + 32 * f7 + 2048 * f8). Qed.
  Lemma br_24_20 : bit_range w 24 20 = f5 + 2 * f6.
  Proof. fld (f0 + 128 * f1 + 256 * f2 + 4096 * f3 + 32768 * f4) (f7 + 64 * f8). Qed.
  Lemma br_20_20 : bit_range w 20 20 = f5.
  Proof. fld (f0 + 128 * f1 + 256 * f2 + 4096 * f3 + 32768 * f4) (f6 + 16 * f7 + 1024 * f8). Qed.
  Lemma br_24_21 : bit_range w 24 21 = f6.
  Proof. fld (f0 + 128 * f1 + 256 * f2 + 4096 * f3 + 32768 * f4 + 1048576 * f5) (f7 + 64 * f8). Qed.
  Lemma br_30_25 : bit_range w 30 25 = f7.
  Proof. fld (f0 + 128 * f1 + 256 * f2 + 4096 * f3 + 32768 * f4 + 1048576 * f5 + 2097152 * f6) f8. Qed.
  Lemma br_31_25 : bit_range w 31 25 = f7 + 64 * f8.
  Proof. fld (f0 + 128 * f1 + 256 * f2 + 4096 * f3 + 32768 * f4 + 1048576 * f5 + 2097152 * f6) 0. Qed.
  Lemma br_31_20 : bit_range w 31 20 = f5 + 2 * f6 + 32 * f7 + 2048 * f8.
  Proof. fld (f0 + 128 * f1 + 256 * f2 + 4096 * f3 + 32768 * f4) 0. Qed.
  Lemma br_31_31 : bit_range w 31 31 = f8.
  Proof. fld (f0 + 128 * f1 + 256 * f2 + 4096 * f3 + 32768 * f4 + 1048576 * f5 + 2097152 * f6 + 33554432 * f7) 0. Qed.
  Lemma br_31_12 : bit_range w 31 12 = f3 + 8 * f4 + 256 * f5 + 512 * f6 + 8192 * f7 + 524288 * f8.
  Proof. fld (f0 + 128 * f1 + 256 * f2) 0. Qed.
End Fields.

Lemma land_shift_0 a n b : 0 <= n -> 0 <= b < 2 ^ n -> Z.land (Z.shiftl a n) b = 0.
Proof.
  intros Hn Hb. destruct (Z.eq_dec b 0) as [->|Hb0]; [apply Z.land_0_r|].
  apply Z.bits_inj'; intros k Hk. rewrite Z.land_spec, Z.bits_0.
  destruct (Z.lt_ge_cases k n).
  - rewrite Z.shiftl_spec_low by lia; reflexivity.
  - rewrite (Z.bits_above_log2 b k); [apply andb_false_r|lia|].
    apply Z.log2_lt_pow2; [lia|]. apply Z.lt_le_trans with (2^n); [lia|].
    apply Z.pow_le_mono_r; lia.
Qed.
Lemma lor_shift a n b : 0 <= n -> 0 <= b < 2 ^ n -> Z.lor (Z.shiftl a n) b = a * 2 ^ n + b.
Proof.
  intros Hn Hb. rewrite <- Z.lxor_lor, <- Z.add_nocarry_lxor by (apply land_shift_0; auto).
  rewrite Z.shiftl_mul_pow2; auto.
Qed.

(** one round of the immediate loop, when the accumulated value still fits *)
Lemma imm_round acc k n b :
  0 <= k -> 0 <= n -> k + n <= 32 -> 0 <= acc < 2 ^ k -> 0 <= b < 2 ^ n ->
  Z.lor (wrap32 (Z.shiftl acc n)) b = acc * 2 ^ n + b.
Proof.
  intros Hk Hn Hkn Ha Hb. unfold wrap32.
  assert (acc * 2 ^ n < 2 ^ 32).
  { apply Z.lt_le_trans with (2 ^ k * 2 ^ n).
    - apply Z.mul_lt_mono_pos_r; [apply Z.pow_pos_nonneg; lia|lia].
    - rewrite <- Z.pow_add_r by lia. apply Z.pow_le_mono_r; lia. }
  rewrite Z.mod_small; [apply lor_shift; auto|].
  rewrite Z.shiftl_mul_pow2 by auto.
  assert (0 < 2 ^ n) by (apply Z.pow_pos_nonneg; lia). change 4294967296 with (2^32). nia.
Qed.

(** the final sign extension, for the four (length, pad) pairs in use *)
Definition sgn (n v : Z) : Z := if v <? 2 ^ (n - 1) then v else v - 2 ^ n.
Ltac fin :=
  unfold wrap32, as_i32, sgn; rewrite ?Z.shiftl_mul_pow2, ?Z.shiftr_div_pow2 by lia; cbn [Z.sub Z.add Z.opp Z.pos_sub Pos.pred_double Pos.succ Z.pow Z.pow_pos Pos.iter Z.mul Pos.mul Pos.add];
  repeat match goal with |- context [?a <? ?b] => destruct (Z.ltb_spec a b) end; try lia.
Lemma final_12_0 v : 0 <= v < 2 ^ 12 ->
  wrap32 (Z.shiftr (as_i32 (wrap32 (Z.shiftl v (32 - 12)))) (32 - 12 - 0)) = wrap32 (sgn 12 v).
Proof. intros; fin. Qed.
Lemma final_12_1 v : 0 <= v < 2 ^ 12 ->
  wrap32 (Z.shiftr (as_i32 (wrap32 (Z.shiftl v (32 - 12)))) (32 - 12 - 1)) = wrap32 (2 * sgn 12 v).
Proof. intros; fin. Qed.
Lemma final_20_1 v : 0 <= v < 2 ^ 20 ->
  wrap32 (Z.shiftr (as_i32 (wrap32 (Z.shiftl v (32 - 20)))) (32 - 20 - 1)) = wrap32 (2 * sgn 20 v).
Proof. intros; fin. Qed.
Lemma final_20_12 v : 0 <= v < 2 ^ 20 ->
  wrap32 (Z.shiftr (as_i32 (wrap32 (Z.shiftl v (32 - 20)))) (32 - 20 - 12)) = 4096 * v.
Proof. intros; fin. Qed.

Section Immediates.
  Variables f0 f1 f2 f3 f4 f5 f6 f7 f8 : Z.
  Hypothesis OK : fields_ok f0 f1 f2 f3 f4 f5 f6 f7 f8.
  Let w := compose f0 f1 f2 f3 f4 f5 f6 f7 f8.

  Ltac rnd k :=
    match goal with |- context [Z.lor (wrap32 (Z.shiftl ?a ?n)) ?b] =>
      lazymatch a with context [Z.lor] => fail | _ =>
        rewrite (imm_round a k n b) by (unfold fields_ok in OK; cbn; lia) end end.
  Lemma imm_I : extract_immediate w [(31,20)] 0 = wrap32 (sgn 12 (f5 + 2 * f6 + 32 * f7 + 2048 * f8)).
  Proof.
    unfold extract_immediate. cbn [fold_left fold_right map].
    unfold w. rewrite br_31_20 by exact OK.
    rnd 0.
    rewrite Z.mul_0_l, Z.add_0_l.
    apply (final_12_0 (f5 + 2 * f6 + 32 * f7 + 2048 * f8)). unfold fields_ok in OK; cbn; lia.
  Qed.
  Lemma imm_S : extract_immediate w [(31,31);(30,25);(11,8);(7,7)] 0
                = wrap32 (sgn 12 (f1 + 2 * f2 + 32 * f7 + 2048 * f8)).
  Proof.
    unfold extract_immediate. cbn [fold_left fold_right map].
    unfold w. rewrite br_31_31, br_30_25, br_11_8, br_7_7 by exact OK.
    rnd 0.
    rnd 1.
    rnd 7.
    rnd 11.
    match goal with |- context [Z.shiftl ?a _] => replace a with (f1 + 2 * f2 + 32 * f7 + 2048 * f8) by (cbn; lia) end.
    apply (final_12_0 (f1 + 2 * f2 + 32 * f7 + 2048 * f8)). unfold fields_ok in OK; cbn; lia.
  Qed.
  Lemma imm_B : extract_immediate w [(31,31);(7,7);(30,25);(11,8)] 1
                = wrap32 (2 * sgn 12 (f2 + 16 * f7 + 1024 * f1 + 2048 * f8)).
  Proof.
    unfold extract_immediate. cbn [fold_left fold_right map].
    unfold w. rewrite br_31_31, br_30_25, br_11_8, br_7_7 by exact OK.
    rnd 0.
    rnd 1.
    rnd 2.
    rnd 8.
    match goal with |- context [Z.shiftl ?a _] => replace a with (f2 + 16 * f7 + 1024 * f1 + 2048 * f8) by (cbn; lia) end.
    apply (final_12_1 (f2 + 16 * f7 + 1024 * f1 + 2048 * f8)). unfold fields_ok in OK; cbn; lia.
  Qed.
  Lemma imm_J : extract_immediate w [(31,31);(19,12);(20,20);(30,25);(24,21)] 1
                = wrap32 (2 * sgn 20 (f6 + 16 * f7 + 1024 * f5 + 2048 * (f3 + 8 * f4) + 524288 * f8)).
  Proof.
    unfold extract_immediate. cbn [fold_left fold_right map].
    unfold w. rewrite br_31_31, br_30_25, br_19_12, br_20_20, br_24_21 by exact OK.
    rnd 0.
    rnd 1.
    rnd 9.
    rnd 10.
    rnd 16.
    match goal with |- context [Z.shiftl ?a _] => replace a with (f6 + 16 * f7 + 1024 * f5 + 2048 * (f3 + 8 * f4) + 524288 * f8) by (cbn; lia) end.
    apply (final_20_1 (f6 + 16 * f7 + 1024 * f5 + 2048 * (f3 + 8 * f4) + 524288 * f8)). unfold fields_ok in OK; cbn; lia.
  Qed.
  Lemma imm_U : extract_immediate w [(31,12)] 12 = 4096 * (f3 + 8 * f4 + 256 * f5 + 512 * f6 + 8192 * f7 + 524288 * f8).
  Proof.
    unfold extract_immediate. cbn [fold_left fold_right map].
    unfold w. rewrite br_31_12 by exact OK.
    rnd 0.
    rewrite Z.mul_0_l, Z.add_0_l.
    apply (final_20_12 (f3 + 8 * f4 + 256 * f5 + 512 * f6 + 8192 * f7 + 524288 * f8)). unfold fields_ok in OK; cbn; lia.
  Qed.
End Immediates.

(** [x & !(2^n - 1)] on 32 bits *)
Lemma land_clear x n c : 0 <= x < 4294967296 -> 0 <= n -> c = Z.ldiff (Z.ones 32) (Z.ones n) ->
  Z.land x c = x / 2 ^ n * 2 ^ n.
Proof.
  intros Hx Hn ->. rewrite Z.ldiff_land, Z.land_assoc.
  rewrite Z.land_ones by lia. rewrite Z.mod_small by (cbn; lia).
  rewrite <- Z.ldiff_land, Z.ldiff_ones_r by lia.
  rewrite Z.shiftl_mul_pow2, Z.shiftr_div_pow2 by lia. reflexivity.
Qed.

(** the decoder in terms of fields *)
Section Decode.
  Variables a f0 f1 f2 f3 f4 f5 f6 f7 f8 : Z.
  Hypothesis OK : fields_ok f0 f1 f2 f3 f4 f5 f6 f7 f8.
  Let w := compose f0 f1 f2 f3 f4 f5 f6 f7 f8.
  Let d := f1 + 2 * f2.
  Let r1 := f4.
  Let r2 := f5 + 2 * f6.
  Let f12 := f5 + 2 * f6 + 32 * f7 + 2048 * f8.
  Let ii := wrap32 (sgn 12 f12).
  Let f7' := f7 + 64 * f8.

  Lemma ii_val : ii = (if f12 <? 2048 then f12 else f12 + 4294963200) /\ f12 = r2 + 32 * f7' /\
    (0 <= r2 < 32 /\ 0 <= f7' < 128).
  Proof.
    assert (Hi : ii = (if f12 <? 2048 then f12 else f12 + 4294963200)).
    { assert (0 <= f12 < 4096) by (unfold f12; unfold fields_ok in OK; lia).
      unfold ii, wrap32, sgn. clearbody f12. change (2 ^ (12 - 1)) with 2048. change (2 ^ 12) with 4096.
      destruct (Z.ltb_spec f12 2048); lia. }
    assert (f12 = r2 + 32 * f7') by (unfold f12, r2, f7'; lia).
    assert (0 <= r2 < 32 /\ 0 <= f7' < 128) by (unfold r2, f7'; unfold fields_ok in OK; lia).
    auto.
  Qed.
  Lemma srl_low : bit_range ii 4 0 = r2.
  Proof.
    unfold ii, f12, r2. rewrite bit_range_div by lia. unfold wrap32, sgn. cbn.
    unfold fields_ok in OK. destruct (_ <? _) ; lia.
  Qed.
  Lemma srl_high : bit_range ii 11 5 = f7'.
  Proof.
    unfold ii, f12, f7'. rewrite bit_range_div by lia. unfold wrap32, sgn. cbn.
    unfold fields_ok in OK. destruct (_ <? _) ; lia.
  Qed.
  Lemma sll_test : (0 =? Z.land ii 4294967264) = (f7' =? 0).
  Proof.
    rewrite (land_clear ii 5) by (unfold ii, wrap32; cbn; first [reflexivity|lia]).
    apply eq_true_iff_eq. rewrite !Z.eqb_eq.
    destruct ii_val as (Hi & H & H0).
    rewrite Hi. clearbody ii f12 r2 f7'. clear -H H0. change (2 ^ 5) with 32.
    destruct (Z.ltb_spec f12 2048); lia.
  Qed.
  Lemma sll_imm : f7' = 0 -> wrap32 (Z.shiftl 1 ii) = 2 ^ r2.
  Proof.
    intros H. assert (ii = r2) as ->.
    { destruct ii_val as (-> & ? & ?). clearbody f12 r2 f7'. clear -H H0 H1. destruct (Z.ltb_spec f12 2048); lia. }
    unfold wrap32. rewrite Z.shiftl_1_l. apply Z.mod_small.
    unfold r2; unfold fields_ok in OK. split; [apply Z.pow_nonneg; lia|].
    change 4294967296 with (2^32). apply Z.pow_lt_mono_r; lia.
  Qed.
  Lemma srl_imm : wrap32 (Z.shiftl 1 r2) = 2 ^ r2.
  Proof.
    unfold wrap32. rewrite Z.shiftl_1_l. apply Z.mod_small.
    unfold r2; unfold fields_ok in OK. split; [apply Z.pow_nonneg; lia|].
    change 4294967296 with (2^32). apply Z.pow_lt_mono_r; lia.
  Qed.
End Decode.

(** every 32-bit word has fields *)
Lemma word_fields w : u32 w -> exists f0 f1 f2 f3 f4 f5 f6 f7 f8,
  fields_ok f0 f1 f2 f3 f4 f5 f6 f7 f8 /\ w = compose f0 f1 f2 f3 f4 f5 f6 f7 f8.
Proof.
  intros H; unfold u32 in H.
  exists (w mod 128), ((w / 128) mod 2), ((w / 256) mod 16), ((w / 4096) mod 8), ((w / 32768) mod 32),
    ((w / 1048576) mod 2), ((w / 2097152) mod 16), ((w / 33554432) mod 64), (w / 2147483648).
  unfold fields_ok, compose. split; lia.
Qed.

Definition decode_f (a f0 f1 f2 f3 f4 f5 f6 f7 f8 w : Z) : decode_result :=
  let d := f1 + 2 * f2 in
  let r1 := f4 in
  let r2 := f5 + 2 * f6 in
  let g7 := f7 + 64 * f8 in
  let g12 := f5 + 2 * f6 + 32 * f7 + 2048 * f8 in
  let ii := wrap32 (sgn 12 g12) in
  let rtype := mkArgs d r1 r2 0 in
  let itype := mkArgs d r1 0 ii in
  let load := mkArgs d 0 r1 ii in
  let stype := mkArgs 0 r2 r1 (wrap32 (sgn 12 (f1 + 2 * f2 + 32 * f7 + 2048 * f8))) in
  let btype := mkArgs 0 r1 r2 (wadd (wrap32 (2 * sgn 12 (f2 + 16 * f7 + 1024 * f1 + 2048 * f8))) a) in
  let uimm := 4096 * (f3 + 8 * f4 + 256 * f5 + 512 * f6 + 8192 * f7 + 524288 * f8) in
  let bad := DErr a w in
  if f0 =? 51 then
    if g7 =? 0 then
      match f3 with 0 => DOk ADD rtype | 1 => DOk SLL rtype | 2 => DOk SLT rtype | 3 => DOk SLTU rtype
                  | 4 => DOk XOR rtype | 5 => DOk SRL rtype | 6 => DOk OR rtype | _ => DOk AND rtype end
    else if g7 =? 32 then
      match f3 with 0 => DOk SUB rtype | 5 => DOk SRA rtype | _ => bad end
    else if g7 =? 1 then
      match f3 with 0 => DOk MUL rtype | 1 => DOk MULH rtype | 2 => DOk MULHSU rtype | 3 => DOk MULHU rtype
                  | 4 => DOk DIV rtype | 5 => DOk DIVU rtype | 6 => DOk REM rtype | _ => DOk REMU rtype end
    else bad
  else if f0 =? 3 then
    match f3 with 0 => DOk LB load | 1 => DOk LH load | 2 => DOk LW load | 4 => DOk LBU load | 5 => DOk LHU load
                | _ => bad end
  else if f0 =? 35 then
    match f3 with 0 => DOk SB stype | 1 => DOk SH stype | 2 => DOk SW stype | _ => bad end
  else if f0 =? 19 then
    match f3 with
    | 0 => DOk ADD itype
    | 1 => if g7 =? 0 then DOk MUL (mkArgs d r1 0 (2 ^ r2)) else bad
    | 2 => DOk SLT itype | 3 => DOk SLTU itype | 4 => DOk XOR itype
    | 5 => if g7 =? 32 then DOk SRA (mkArgs d r1 0 r2)
           else if g7 =? 0 then DOk DIVU (mkArgs d r1 0 (2 ^ r2)) else bad
    | 6 => DOk OR itype | _ => DOk AND itype end
  else if f0 =? 115 then
    match f3 with
    | 0 => if g12 =? 0 then inl ECALL_INST else if g12 =? 770 then inl NOP else if g12 =? 1 then inl NOP else bad
    | 1 | 2 | 5 => inl NOP
    | _ => bad end
  else if f0 =? 111 then
    DOk JALR (mkArgs d 0 0 (wadd (wrap32 (2 * sgn 20 (f6 + 16 * f7 + 1024 * f5 + 2048 * (f3 + 8 * f4) + 524288 * f8))) a))
  else if f0 =? 103 then (if f3 =? 0 then DOk JALR itype else bad)
  else if f0 =? 99 then
    match f3 with 0 => DOk BEQ btype | 1 => DOk BNE btype | 4 => DOk BLT btype | 5 => DOk BGE btype
                | 6 => DOk BLTU btype | 7 => DOk BGEU btype | _ => bad end
  else if f0 =? 55 then DOk ADD (mkArgs d 0 0 uimm)
  else if f0 =? 23 then DOk ADD (mkArgs d 0 0 (wadd uimm a))
  else if f0 =? 15 then inl NOP
  else bad.

Lemma decode_fields a f0 f1 f2 f3 f4 f5 f6 f7 f8 :
  fields_ok f0 f1 f2 f3 f4 f5 f6 f7 f8 ->
  decode_instruction a (compose f0 f1 f2 f3 f4 f5 f6 f7 f8)
  = decode_f a f0 f1 f2 f3 f4 f5 f6 f7 f8 (compose f0 f1 f2 f3 f4 f5 f6 f7 f8).
Proof.
  intros OK. unfold decode_instruction, bf_opcode, bf_rd, bf_funct3, bf_rs1, bf_rs2, bf_funct7, bf_funct12.
  rewrite br_6_0, br_11_7, br_14_12, br_19_15, br_24_20, br_31_25, br_31_20, imm_I, imm_S, imm_B, imm_J, imm_U
    by exact OK.
  cbn [imm]. rewrite (srl_low f0 f1 f2 f3 f4 f5 f6 f7 f8 OK), (srl_high f0 f1 f2 f3 f4 f5 f6 f7 f8 OK), (sll_test f0 f1 f2 f3 f4 f5 f6 f7 f8 OK), (srl_imm f0 f1 f2 f3 f4 f5 f6 f7 f8 OK).
  pose proof (sll_imm f0 f1 f2 f3 f4 f5 f6 f7 f8 OK) as Hs. cbv zeta in Hs.
  set (w := compose _ _ _ _ _ _ _ _ _). clearbody w.
  unfold decode_f.
  assert (H3 : f3 = 0 \/ f3 = 1 \/ f3 = 2 \/ f3 = 3 \/ f3 = 4 \/ f3 = 5 \/ f3 = 6 \/ f3 = 7)
    by (unfold fields_ok in OK; lia).
  repeat (destruct H3 as [->|H3]); [.. | subst f3];
    cbn [Z.eqb Pos.eqb andb]; 
    repeat (first [reflexivity
      | match goal with |- context [?x =? ?y] => 
          let b := fresh in destruct (x =? y) eqn:b; cbn [andb]; try (apply Z.eqb_eq in b; try rewrite (Hs b); rewrite ?b in * ) end]).
Qed.

Lemma bits_pos v hi lo : 0 <= lo -> bits v hi lo = (v / 2 ^ lo) mod 2 ^ (hi - lo + 1).
Proof. reflexivity. Qed.
Ltac red_pow := repeat match goal with |- context [2 ^ ?k] =>
  let k' := eval vm_compute in k in let v := eval vm_compute in (2 ^ k') in
  match v with Z0 => fail 1 | Zpos _ => change (2 ^ k) with v end end.

Definition cR opc f3 f7 rd rs1 rs2 := compose opc (rd mod 2) (rd / 2) f3 rs1 (rs2 mod 2) (rs2 / 2) (f7 mod 64) (f7 / 64).
Lemma enc_R_fields opc f3 f7 rd rs1 rs2 :
  0 <= opc < 128 -> 0 <= f3 < 8 -> 0 <= f7 < 128 -> is_reg rd -> is_reg rs1 -> is_reg rs2 ->
  fields_ok opc (rd mod 2) (rd / 2) f3 rs1 (rs2 mod 2) (rs2 / 2) (f7 mod 64) (f7 / 64) /\
  enc_R opc f3 f7 rd rs1 rs2 = cR opc f3 f7 rd rs1 rs2.
Proof. unfold is_reg, fields_ok, enc_R, cR, compose; intros. red_pow. split; lia. Qed.

Definition cI opc f3 rd rs1 i := compose opc (rd mod 2) (rd / 2) f3 rs1 (i mod 2) ((i / 2) mod 16) ((i / 32) mod 64) ((i / 2048) mod 2).
Lemma enc_I_fields opc f3 rd rs1 i :
  0 <= opc < 128 -> 0 <= f3 < 8 -> is_reg rd -> is_reg rs1 ->
  fields_ok opc (rd mod 2) (rd / 2) f3 rs1 (i mod 2) ((i / 2) mod 16) ((i / 32) mod 64) ((i / 2048) mod 2) /\
  enc_I opc f3 rd rs1 i = cI opc f3 rd rs1 i.
Proof. unfold is_reg, fields_ok, enc_I, cI, compose, bits; intros. red_pow. split; lia. Qed.

Definition cS opc f3 rs1 rs2 i := compose opc (i mod 2) ((i / 2) mod 16) f3 rs1 (rs2 mod 2) (rs2 / 2) ((i / 32) mod 64) ((i / 2048) mod 2).
Lemma enc_S_fields opc f3 rs1 rs2 i :
  0 <= opc < 128 -> 0 <= f3 < 8 -> is_reg rs2 -> is_reg rs1 ->
  fields_ok opc (i mod 2) ((i / 2) mod 16) f3 rs1 (rs2 mod 2) (rs2 / 2) ((i / 32) mod 64) ((i / 2048) mod 2) /\
  enc_S opc f3 rs1 rs2 i = cS opc f3 rs1 rs2 i.
Proof. unfold is_reg, fields_ok, enc_S, cS, compose, bits; intros. red_pow. split; lia. Qed.

Definition cB opc f3 rs1 rs2 i := compose opc ((i / 2048) mod 2) ((i / 2) mod 16) f3 rs1 (rs2 mod 2) (rs2 / 2) ((i / 32) mod 64) ((i / 4096) mod 2).
Lemma enc_B_fields opc f3 rs1 rs2 i :
  0 <= opc < 128 -> 0 <= f3 < 8 -> is_reg rs2 -> is_reg rs1 ->
  fields_ok opc ((i / 2048) mod 2) ((i / 2) mod 16) f3 rs1 (rs2 mod 2) (rs2 / 2) ((i / 32) mod 64) ((i / 4096) mod 2) /\
  enc_B opc f3 rs1 rs2 i = cB opc f3 rs1 rs2 i.
Proof. unfold is_reg, fields_ok, enc_B, cB, compose, bits; intros. red_pow. split; lia. Qed.

Definition cU opc rd i := compose opc (rd mod 2) (rd / 2) (i mod 8) ((i / 8) mod 32) ((i / 256) mod 2) ((i / 512) mod 16) ((i / 8192) mod 64) (i / 524288).
Lemma enc_U_fields opc rd i :
  0 <= opc < 128 -> is_reg rd -> 0 <= i < 1048576 ->
  fields_ok opc (rd mod 2) (rd / 2) (i mod 8) ((i / 8) mod 32) ((i / 256) mod 2) ((i / 512) mod 16) ((i / 8192) mod 64) (i / 524288) /\
  enc_U opc rd i = cU opc rd i.
Proof. unfold is_reg, fields_ok, enc_U, cU, compose, bits; intros. red_pow. split; lia. Qed.

Definition cJ opc rd i := compose opc (rd mod 2) (rd / 2) ((i / 4096) mod 8) ((i / 32768) mod 32) ((i / 2048) mod 2) ((i / 2) mod 16) ((i / 32) mod 64) ((i / 1048576) mod 2).
Lemma enc_J_fields opc rd i :
  0 <= opc < 128 -> is_reg rd ->
  fields_ok opc (rd mod 2) (rd / 2) ((i / 4096) mod 8) ((i / 32768) mod 32) ((i / 2048) mod 2) ((i / 2) mod 16) ((i / 32) mod 64) ((i / 1048576) mod 2) /\
  enc_J opc rd i = cJ opc rd i.
Proof. unfold is_reg, fields_ok, enc_J, cJ, compose, bits; intros. red_pow. split; lia. Qed.

Lemma sgn_I i : is_imm12 i ->
  wrap32 (sgn 12 (i mod 2 + 2 * ((i / 2) mod 16) + 32 * ((i / 32) mod 64) + 2048 * ((i / 2048) mod 2))) = word i.
Proof.
  unfold is_imm12, wrap32, word, M32, sgn; intros. change (2^32) with 4294967296. change (2 ^ (12-1)) with 2048. change (2^12) with 4096.
  destruct (_ <? _) eqn:E; [apply Z.ltb_lt in E|apply Z.ltb_ge in E]; f_equal; lia.
Qed.
Lemma sgn_B a i : -4096 <= i < 4096 -> i mod 2 = 0 ->
  wadd (wrap32 (2 * sgn 12 ((i / 2) mod 16 + 16 * ((i / 32) mod 64) + 1024 * ((i / 2048) mod 2) + 2048 * ((i / 4096) mod 2)))) a = word (a + i).
Proof.
  intros. assert (2 * sgn 12 ((i / 2) mod 16 + 16 * ((i / 32) mod 64) + 1024 * ((i / 2048) mod 2) + 2048 * ((i / 4096) mod 2)) = i) as ->.
  { unfold sgn. change (2 ^ (12-1)) with 2048. change (2^12) with 4096.
  destruct (_ <? _) eqn:E; [apply Z.ltb_lt in E|apply Z.ltb_ge in E]; lia. }
  unfold wadd, wrap32, word, M32. change (2^32) with 4294967296. lia.
Qed.
Lemma sgn_J a i : -1048576 <= i < 1048576 -> i mod 2 = 0 ->
  wadd (wrap32 (2 * sgn 20 ((i / 2) mod 16 + 16 * ((i / 32) mod 64) + 1024 * ((i / 2048) mod 2) + 2048 * ((i / 4096) mod 8 + 8 * ((i / 32768) mod 32)) + 524288 * ((i / 1048576) mod 2)))) a = word (a + i).
Proof.
  intros. assert (2 * sgn 20 ((i / 2) mod 16 + 16 * ((i / 32) mod 64) + 1024 * ((i / 2048) mod 2) + 2048 * ((i / 4096) mod 8 + 8 * ((i / 32768) mod 32)) + 524288 * ((i / 1048576) mod 2)) = i) as ->.
  { unfold sgn. change (2 ^ (20-1)) with 524288. change (2^20) with 1048576.
  destruct (_ <? _) eqn:E; [apply Z.ltb_lt in E|apply Z.ltb_ge in E]; lia. }
  unfold wadd, wrap32, word, M32. change (2^32) with 4294967296. lia.
Qed.
Lemma reg_split r : r mod 2 + 2 * (r / 2) = r.
Proof. lia. Qed.
Lemma f7_split r : r mod 64 + 64 * (r / 64) = r.
Proof. lia. Qed.

Lemma U_split i : 0 <= i < 1048576 ->
  4096 * (i mod 8 + 8 * ((i / 8) mod 32) + 256 * ((i / 256) mod 2) + 512 * ((i / 512) mod 16)
          + 8192 * ((i / 8192) mod 64) + 524288 * (i / 524288)) = i * 2 ^ 12.
Proof. intros. red_pow. lia. Qed.

Lemma decode_encode_rv a r : rv_ok r -> decode_instruction a (encode r) = inl (lower a r).
Proof.
  intros H. destruct r; cbn [encode].
  - cbn in H. destruct o; cbn [alu_codes fst snd];
      match goal with |- context [enc_R ?opc ?f3 ?f7 ?d ?r1 ?r2] =>
        destruct (enc_R_fields opc f3 f7 d r1 r2) as [F ->]; [lia|lia|lia|tauto|tauto|tauto|] end;
      unfold cR; rewrite (decode_fields _ _ _ _ _ _ _ _ _ _ F); unfold decode_f; rewrite ?reg_split, ?f7_split;
      reflexivity.
  - cbn in H. destruct o; cbn [alui_code];
      match goal with |- context [enc_I ?opc ?f3 ?d ?r1 ?i] =>
        destruct (enc_I_fields opc f3 d r1 i) as [F ->]; [lia|lia|tauto|tauto|] end;
      unfold cI; rewrite (decode_fields _ _ _ _ _ _ _ _ _ _ F); unfold decode_f; rewrite ?reg_split, ?sgn_I by tauto;
      reflexivity.
  - cbn in H. destruct o;
      match goal with |- context [enc_R ?opc ?f3 ?f7 ?d ?r1 ?r2] =>
        destruct (enc_R_fields opc f3 f7 d r1 r2) as [F ->]; [lia|lia|lia|tauto|tauto|unfold is_reg; tauto|] end;
      unfold cR; rewrite (decode_fields _ _ _ _ _ _ _ _ _ _ F); unfold decode_f; rewrite ?reg_split, ?f7_split;
      reflexivity.
  - cbn in H. destruct H as (?&?&?&Hw). destruct w, unsigned; try (discriminate (Hw eq_refl)); cbv [load_code Z.add Pos.add Pos.succ];
      match goal with |- context [enc_I ?opc ?f3 ?d ?r1 ?i] =>
        destruct (enc_I_fields opc f3 d r1 i) as [F ->]; [lia|lia|tauto|tauto|] end;
      unfold cI; rewrite (decode_fields _ _ _ _ _ _ _ _ _ _ F); unfold decode_f; rewrite ?reg_split, ?sgn_I by tauto;
      reflexivity.
  - cbn in H. destruct w; cbn [store_code];
      match goal with |- context [enc_S ?opc ?f3 ?r1 ?r2 ?i] =>
        destruct (enc_S_fields opc f3 r1 r2 i) as [F ->]; [lia|lia|tauto|tauto|] end;
      unfold cS; rewrite (decode_fields _ _ _ _ _ _ _ _ _ _ F); unfold decode_f; rewrite ?reg_split, ?sgn_I by tauto;
      reflexivity.
  - cbn in H. destruct c; cbn [cond_code];
      match goal with |- context [enc_B ?opc ?f3 ?r1 ?r2 ?i] =>
        destruct (enc_B_fields opc f3 r1 r2 i) as [F ->]; [lia|lia|tauto|tauto|] end;
      unfold cB; rewrite (decode_fields _ _ _ _ _ _ _ _ _ _ F); unfold decode_f; rewrite ?reg_split, ?sgn_B by tauto;
      reflexivity.
  - cbn in H. destruct (enc_U_fields 55 rd imm) as [F ->]; [lia|tauto|tauto|].
    unfold cU; rewrite (decode_fields _ _ _ _ _ _ _ _ _ _ F); unfold decode_f; rewrite ?reg_split; cbn [Z.eqb Pos.eqb].
    unfold DOk, lower. rewrite U_split by tauto. reflexivity.
  - cbn in H. destruct (enc_U_fields 23 rd imm) as [F ->]; [lia|tauto|tauto|].
    unfold cU; rewrite (decode_fields _ _ _ _ _ _ _ _ _ _ F); unfold decode_f; rewrite ?reg_split; cbn [Z.eqb Pos.eqb].
    unfold DOk, lower. rewrite U_split by tauto. unfold wadd. rewrite Z.add_comm. reflexivity.
  - cbn in H. destruct (enc_J_fields 111 rd offset) as [F ->]; [lia|tauto|].
    unfold cJ; rewrite (decode_fields _ _ _ _ _ _ _ _ _ _ F); unfold decode_f; rewrite ?reg_split, ?sgn_J by tauto; reflexivity.
  - cbn in H. destruct (enc_I_fields 103 0 rd rs1 imm) as [F ->]; [lia|lia|tauto|tauto|].
    unfold cI; rewrite (decode_fields _ _ _ _ _ _ _ _ _ _ F); unfold decode_f; rewrite ?reg_split, ?sgn_I by tauto; reflexivity.
  - cbn in H. destruct (enc_I_fields 115 0 rd rs1 0) as [F ->]; [lia|lia|tauto|tauto|].
    unfold cI; rewrite (decode_fields _ _ _ _ _ _ _ _ _ _ F); unfold decode_f; rewrite ?reg_split, ?sgn_I by tauto; reflexivity.
  - cbn in H. destruct (enc_I_fields 115 0 rd rs1 1) as [F ->]; [lia|lia|tauto|tauto|].
    unfold cI; rewrite (decode_fields _ _ _ _ _ _ _ _ _ _ F); unfold decode_f; rewrite ?reg_split, ?sgn_I by tauto; reflexivity.
  - cbn in H. destruct (enc_I_fields 115 0 rd rs1 770) as [F ->]; [lia|lia|tauto|tauto|].
    unfold cI; rewrite (decode_fields _ _ _ _ _ _ _ _ _ _ F); unfold decode_f; rewrite ?reg_split, ?sgn_I by tauto; reflexivity.
  - cbn in H. destruct (enc_I_fields 115 f3 rd rs1 csr) as [F ->]; [lia|lia|tauto|tauto|].
    unfold cI; rewrite (decode_fields _ _ _ _ _ _ _ _ _ _ F).
    destruct H as [[->|[->| ->]] _]; reflexivity.
  - cbn in H. destruct (word_fields (rest * 2 ^ 7 + 15)) as (f0&f1&f2&f3&f4&f5&f6&f7&f8&F&E).
    { unfold u32. red_pow. lia. }
    rewrite E, (decode_fields _ _ _ _ _ _ _ _ _ _ F).
    assert (f0 = 15) as ->. { unfold fields_ok in F. unfold compose in E. revert E. red_pow. lia. }
    reflexivity.
Qed.

Section Inverse.
  Variables f0 f1 f2 f3 f4 f5 f6 f7 f8 : Z.
  Hypothesis OK : fields_ok f0 f1 f2 f3 f4 f5 f6 f7 f8.
  Let w := compose f0 f1 f2 f3 f4 f5 f6 f7 f8.
  Ltac go := unfold w, compose, bits; unfold fields_ok in OK; unfold is_reg, is_imm12, sgn; 
    change (2 ^ (12 - 1)) with 2048 in *; change (2 ^ 12) with 4096 in *;
    change (2 ^ (20 - 1)) with 524288 in *; change (2 ^ 20) with 1048576 in *;
    try match goal with |- context [?a <? ?b] => destruct (Z.ltb_spec a b) end;
    red_pow; repeat split; lia.
  Lemma inv_R g7 : f7 + 64 * f8 = g7 -> is_reg (f1 + 2 * f2) /\ is_reg f4 /\ is_reg (f5 + 2 * f6) /\
    enc_R f0 f3 g7 (f1 + 2 * f2) f4 (f5 + 2 * f6) = w.
  Proof. intros <-. unfold enc_R. go. Qed.
  Lemma inv_I : is_reg (f1 + 2 * f2) /\ is_reg f4 /\ is_imm12 (sgn 12 (f5 + 2 * f6 + 32 * f7 + 2048 * f8)) /\
    enc_I f0 f3 (f1 + 2 * f2) f4 (sgn 12 (f5 + 2 * f6 + 32 * f7 + 2048 * f8)) = w.
  Proof. unfold enc_I. go. Qed.
  Lemma inv_I' g : f5 + 2 * f6 + 32 * f7 + 2048 * f8 = g -> is_reg (f1 + 2 * f2) /\ is_reg f4 /\ 0 <= g < 4096 /\
    enc_I f0 f3 (f1 + 2 * f2) f4 g = w.
  Proof. intros <-. unfold enc_I. go. Qed.
  Lemma inv_S : is_reg (f5 + 2 * f6) /\ is_reg f4 /\ is_imm12 (sgn 12 (f1 + 2 * f2 + 32 * f7 + 2048 * f8)) /\
    enc_S f0 f3 f4 (f5 + 2 * f6) (sgn 12 (f1 + 2 * f2 + 32 * f7 + 2048 * f8)) = w.
  Proof. unfold enc_S. go. Qed.
  Lemma inv_B : is_reg (f5 + 2 * f6) /\ is_reg f4 /\
    -4096 <= 2 * sgn 12 (f2 + 16 * f7 + 1024 * f1 + 2048 * f8) < 4096 /\
    (2 * sgn 12 (f2 + 16 * f7 + 1024 * f1 + 2048 * f8)) mod 2 = 0 /\
    enc_B f0 f3 f4 (f5 + 2 * f6) (2 * sgn 12 (f2 + 16 * f7 + 1024 * f1 + 2048 * f8)) = w.
  Proof. unfold enc_B. go. Qed.
  Lemma inv_U : is_reg (f1 + 2 * f2) /\ 0 <= f3 + 8 * f4 + 256 * f5 + 512 * f6 + 8192 * f7 + 524288 * f8 < 1048576 /\
    enc_U f0 (f1 + 2 * f2) (f3 + 8 * f4 + 256 * f5 + 512 * f6 + 8192 * f7 + 524288 * f8) = w.
  Proof. unfold enc_U. go. Qed.
  Lemma inv_J : let i := 2 * sgn 20 (f6 + 16 * f7 + 1024 * f5 + 2048 * (f3 + 8 * f4) + 524288 * f8) in
    is_reg (f1 + 2 * f2) /\ -1048576 <= i < 1048576 /\ i mod 2 = 0 /\ enc_J f0 (f1 + 2 * f2) i = w.
  Proof. cbv zeta. unfold enc_J. go. Qed.
End Inverse.

Lemma decode_total a w : u32 w ->
  decode_instruction a w = inr (a, w) \/ exists r, rv_ok r /\ encode r = w.
Proof.
  intros Hw. destruct (word_fields w Hw) as (f0&f1&f2&f3&f4&f5&f6&f7&f8&F&->).
  rewrite (decode_fields _ _ _ _ _ _ _ _ _ _ F).
  set (w := compose f0 f1 f2 f3 f4 f5 f6 f7 f8) in *.
  unfold decode_f.
  assert (H3 : f3 = 0 \/ f3 = 1 \/ f3 = 2 \/ f3 = 3 \/ f3 = 4 \/ f3 = 5 \/ f3 = 6 \/ f3 = 7)
    by (unfold fields_ok in F; lia).
  destruct (Z.eqb_spec f0 51).
  { subst f0. destruct (Z.eqb_spec (f7 + 64 * f8) 0) as [G|].
    - destruct (inv_R _ _ _ _ _ _ _ _ _ F _ G) as (?&?&?&E). right.
      destruct H3 as [->|[->|[->|[->|[->|[->|[->| ->]]]]]]].
      + exists (Alu rADD (f1 + 2 * f2) f4 (f5 + 2 * f6)); cbn; auto.
      + exists (Alu rSLL (f1 + 2 * f2) f4 (f5 + 2 * f6)); cbn; auto.
      + exists (Alu rSLT (f1 + 2 * f2) f4 (f5 + 2 * f6)); cbn; auto.
      + exists (Alu rSLTU (f1 + 2 * f2) f4 (f5 + 2 * f6)); cbn; auto.
      + exists (Alu rXOR (f1 + 2 * f2) f4 (f5 + 2 * f6)); cbn; auto.
      + exists (Alu rSRL (f1 + 2 * f2) f4 (f5 + 2 * f6)); cbn; auto.
      + exists (Alu rOR (f1 + 2 * f2) f4 (f5 + 2 * f6)); cbn; auto.
      + exists (Alu rAND (f1 + 2 * f2) f4 (f5 + 2 * f6)); cbn; auto.
    - destruct (Z.eqb_spec (f7 + 64 * f8) 32) as [G|].
      + destruct (inv_R _ _ _ _ _ _ _ _ _ F _ G) as (?&?&?&E).
        destruct H3 as [->|[->|[->|[->|[->|[->|[->| ->]]]]]]]; auto; right.
        * exists (Alu rSUB (f1 + 2 * f2) f4 (f5 + 2 * f6)); cbn; auto.
        * exists (Alu rSRA (f1 + 2 * f2) f4 (f5 + 2 * f6)); cbn; auto.
      + destruct (Z.eqb_spec (f7 + 64 * f8) 1) as [G|]; auto.
        destruct (inv_R _ _ _ _ _ _ _ _ _ F _ G) as (?&?&?&E). right.
        destruct H3 as [->|[->|[->|[->|[->|[->|[->| ->]]]]]]].
        * exists (Alu rMUL (f1 + 2 * f2) f4 (f5 + 2 * f6)); cbn; auto.
        * exists (Alu rMULH (f1 + 2 * f2) f4 (f5 + 2 * f6)); cbn; auto.
        * exists (Alu rMULHSU (f1 + 2 * f2) f4 (f5 + 2 * f6)); cbn; auto.
        * exists (Alu rMULHU (f1 + 2 * f2) f4 (f5 + 2 * f6)); cbn; auto.
        * exists (Alu rDIV (f1 + 2 * f2) f4 (f5 + 2 * f6)); cbn; auto.
        * exists (Alu rDIVU (f1 + 2 * f2) f4 (f5 + 2 * f6)); cbn; auto.
        * exists (Alu rREM (f1 + 2 * f2) f4 (f5 + 2 * f6)); cbn; auto.
        * exists (Alu rREMU (f1 + 2 * f2) f4 (f5 + 2 * f6)); cbn; auto. }
  destruct (inv_I _ _ _ _ _ _ _ _ _ F) as (?&?&?&EI).
  set (ii := sgn 12 (f5 + 2 * f6 + 32 * f7 + 2048 * f8)) in *.
  destruct (Z.eqb_spec f0 3).
  { subst f0. destruct H3 as [->|[->|[->|[->|[->|[->|[->| ->]]]]]]]; auto; right.
    - exists (Load wB false (f1 + 2 * f2) f4 ii); cbn; auto.
    - exists (Load wH false (f1 + 2 * f2) f4 ii); cbn; auto.
    - exists (Load wW false (f1 + 2 * f2) f4 ii); cbn; auto.
    - exists (Load wB true (f1 + 2 * f2) f4 ii); cbn [rv_ok encode]; (split; [|exact EI]); do 3 (split; [assumption|]); discriminate.
    - exists (Load wH true (f1 + 2 * f2) f4 ii); cbn [rv_ok encode]; (split; [|exact EI]); do 3 (split; [assumption|]); discriminate. }
  destruct (Z.eqb_spec f0 35).
  { subst f0. destruct (inv_S _ _ _ _ _ _ _ _ _ F) as (?&?&?&ES).
    set (si := sgn 12 (f1 + 2 * f2 + 32 * f7 + 2048 * f8)) in *.
    destruct H3 as [->|[->|[->|[->|[->|[->|[->| ->]]]]]]]; auto; right.
    - exists (Store wB f4 (f5 + 2 * f6) si); cbn; auto.
    - exists (Store wH f4 (f5 + 2 * f6) si); cbn; auto.
    - exists (Store wW f4 (f5 + 2 * f6) si); cbn; auto. }
  destruct (Z.eqb_spec f0 19).
  { subst f0. destruct H3 as [->|[->|[->|[->|[->|[->|[->| ->]]]]]]].
    - right; exists (AluI iADDI (f1 + 2 * f2) f4 ii); cbn; auto.
    - destruct (Z.eqb_spec (f7 + 64 * f8) 0) as [G|]; auto. right.
      destruct (inv_R _ _ _ _ _ _ _ _ _ F _ G) as (?&?&?&E).
      exists (ShiftI sSLLI (f1 + 2 * f2) f4 (f5 + 2 * f6)); cbn; auto.
    - right; exists (AluI iSLTI (f1 + 2 * f2) f4 ii); cbn; auto.
    - right; exists (AluI iSLTIU (f1 + 2 * f2) f4 ii); cbn; auto.
    - right; exists (AluI iXORI (f1 + 2 * f2) f4 ii); cbn; auto.
    - destruct (Z.eqb_spec (f7 + 64 * f8) 32) as [G|].
      + right. destruct (inv_R _ _ _ _ _ _ _ _ _ F _ G) as (?&?&?&E).
        exists (ShiftI sSRAI (f1 + 2 * f2) f4 (f5 + 2 * f6)); cbn; auto.
      + destruct (Z.eqb_spec (f7 + 64 * f8) 0) as [G|]; auto. right.
        destruct (inv_R _ _ _ _ _ _ _ _ _ F _ G) as (?&?&?&E).
        exists (ShiftI sSRLI (f1 + 2 * f2) f4 (f5 + 2 * f6)); cbn; auto.
    - right; exists (AluI iORI (f1 + 2 * f2) f4 ii); cbn; auto.
    - right; exists (AluI iANDI (f1 + 2 * f2) f4 ii); cbn; auto. }
  destruct (Z.eqb_spec f0 115).
  { subst f0. destruct (inv_I' _ _ _ _ _ _ _ _ _ F _ eq_refl) as (?&?&?&EC).
    destruct H3 as [->|[->|[->|[->|[->|[->|[->| ->]]]]]]]; auto.
    - destruct (Z.eqb_spec (f5 + 2 * f6 + 32 * f7 + 2048 * f8) 0) as [G|].
      { right; exists (Ecall (f1 + 2 * f2) f4); cbn [rv_ok encode]; rewrite G in EC; auto. }
      destruct (Z.eqb_spec (f5 + 2 * f6 + 32 * f7 + 2048 * f8) 770) as [G'|].
      { right; exists (Mret (f1 + 2 * f2) f4). cbn [rv_ok encode]. rewrite G' in EC; auto. }
      destruct (Z.eqb_spec (f5 + 2 * f6 + 32 * f7 + 2048 * f8) 1) as [G''|]; auto.
      right; exists (Ebreak (f1 + 2 * f2) f4). cbn [rv_ok encode]. rewrite G'' in EC; auto.
    - right. exists (Csr 1 (f1 + 2 * f2) f4 (f5 + 2 * f6 + 32 * f7 + 2048 * f8)); cbn; auto 10.
    - right. exists (Csr 2 (f1 + 2 * f2) f4 (f5 + 2 * f6 + 32 * f7 + 2048 * f8)); cbn; auto 10.
    - right. exists (Csr 5 (f1 + 2 * f2) f4 (f5 + 2 * f6 + 32 * f7 + 2048 * f8)); cbn; auto 10. }
  destruct (Z.eqb_spec f0 111).
  { subst f0. right. destruct (inv_J _ _ _ _ _ _ _ _ _ F) as (?&?&?&EJ).
    eexists (Jal (f1 + 2 * f2) _); cbn [rv_ok encode]. split; [|exact EJ]. auto. }
  destruct (Z.eqb_spec f0 103).
  { subst f0. destruct (Z.eqb_spec f3 0); auto. subst f3. right.
    exists (Jalr (f1 + 2 * f2) f4 ii); cbn; auto. }
  destruct (Z.eqb_spec f0 99).
  { subst f0. destruct (inv_B _ _ _ _ _ _ _ _ _ F) as (?&?&?&?&EB).
    set (bi := 2 * sgn 12 (f2 + 16 * f7 + 1024 * f1 + 2048 * f8)) in *.
    destruct H3 as [->|[->|[->|[->|[->|[->|[->| ->]]]]]]]; auto; right.
    - exists (Branch cEQ f4 (f5 + 2 * f6) bi); cbn [rv_ok encode cond_code]; auto.
    - exists (Branch cNE f4 (f5 + 2 * f6) bi); cbn [rv_ok encode cond_code]; auto.
    - exists (Branch cLT f4 (f5 + 2 * f6) bi); cbn [rv_ok encode cond_code]; auto.
    - exists (Branch cGE f4 (f5 + 2 * f6) bi); cbn [rv_ok encode cond_code]; auto.
    - exists (Branch cLTU f4 (f5 + 2 * f6) bi); cbn [rv_ok encode cond_code]; auto.
    - exists (Branch cGEU f4 (f5 + 2 * f6) bi); cbn [rv_ok encode cond_code]; auto. }
  destruct (inv_U _ _ _ _ _ _ _ _ _ F) as (?&?&EU).
  destruct (Z.eqb_spec f0 55).
  { subst f0. right. eexists (Lui (f1 + 2 * f2) _); cbn [rv_ok encode]. split; [|exact EU]. auto. }
  destruct (Z.eqb_spec f0 23).
  { subst f0. right. eexists (Auipc (f1 + 2 * f2) _); cbn [rv_ok encode]. split; [|exact EU]. auto. }
  destruct (Z.eqb_spec f0 15); auto.
  subst f0. right. exists (Fence (w / 128)). cbn [rv_ok encode]. red_pow.
  unfold w, compose, fields_ok in *. lia.
Qed.
