(** Proofs about the small tables. *)
From Verif Require Import CircuitSpec.
Open Scope Z_scope.
Ltac Zify.zify_post_hook ::= Z.div_mod_to_equations.

(** ** bits *)
Lemma testbit_cons x b : bit b -> forall n, 0 <= n -> Z.testbit (x * 2 + b) n = if n =? 0 then b =? 1 else Z.testbit x (n - 1).
Proof.
  intros B n Hn. destruct (Z.eqb_spec n 0) as [->|N].
  - rewrite Z.bit0_odd. replace (x * 2 + b) with (b + 2 * x) by lia. rewrite Z.odd_add_mul_2.
    destruct B as [->| ->]; reflexivity.
  - replace n with (Z.succ (n - 1)) at 1 by lia. replace (x * 2 + b) with (2 * x + Z.b2z (b =? 1)).
    + apply Z.testbit_succ_r. lia.
    + destruct B as [->| ->]; cbn; lia.
Qed.
Lemma testbit_neg_idx x n : n < 0 -> Z.testbit x n = false.
Proof. apply Z.testbit_neg_r. Qed.
Lemma lxor_cons x y a b o : bit a -> bit b -> bit o -> (a + b - o = 0 \/ a + b - 2 - o = 0) ->
  Z.lxor (x * 2 + a) (y * 2 + b) = Z.lxor x y * 2 + o.
Proof.
  intros A B O H. apply Z.bits_inj'. intros n Hn. rewrite Z.lxor_spec, !testbit_cons by auto.
  destruct (Z.eqb_spec n 0); [|rewrite Z.lxor_spec; reflexivity].
  unfold bit in *. destruct A as [->| ->], B as [->| ->], O as [->| ->]; cbn; auto; lia.
Qed.
Lemma reduce_bits l : Forall bit l -> 0 <= reduce_with_powers l 2 < 2 ^ Z.of_nat (length l).
Proof.
  induction 1 as [|b l B F IH]; [cbn; lia|]. cbn [reduce_with_powers fold_right length] in *.
  fold (reduce_with_powers l 2). rewrite Nat2Z.inj_succ, Z.pow_succ_r by lia.
  unfold reduce_with_powers in *. unfold bit in B. lia.
Qed.
Lemma reduce_lxor : forall la lb lo, length la = length lb -> length lb = length lo ->
  Forall bit la -> Forall bit lb -> Forall bit lo ->
  Forall (fun '(a, (b, o)) => a + b - o = 0 \/ a + b - 2 - o = 0) (combine la (combine lb lo)) ->
  reduce_with_powers lo 2 = Z.lxor (reduce_with_powers la 2) (reduce_with_powers lb 2).
Proof.
  induction la as [|a la IH]; intros [|b lb] [|o lo] L1 L2 A B O H; try discriminate; [reflexivity|].
  inversion A; inversion B; inversion O; subst. cbn [combine] in H. inversion H; subst.
  cbn [reduce_with_powers fold_right]. fold (reduce_with_powers la 2) (reduce_with_powers lb 2) (reduce_with_powers lo 2).
  erewrite lxor_cons by eauto. f_equal. f_equal. apply IH; auto.
Qed.

Lemma xor_sound r : xor_row_typed r -> all_zero (xor_constraints r) ->
  u32 (x_a r) /\ u32 (x_b r) /\ u32 (x_out r) /\ x_out r = Z.lxor (x_a r) (x_b r).
Proof.
  intros [(La & Lb & Lo) C] Z0. unfold all_zero, xor_constraints in Z0. rewrite !Forall_app in Z0.
  destruct Z0 as (Zb & Zr & Zx). rewrite List.Forall_map in Zb.
  inversion C as [|? ? _ C1]; subst. inversion C1 as [|? ? Ca C2]; subst. inversion C2 as [|? ? Cb C3]; subst.
  inversion C3 as [|? ? Co C4]; subst. clear C C1 C2 C3.
  assert (B : Forall bit (xl_a r ++ xl_b r ++ xl_out r)).
  { rewrite Forall_forall in *. intros x Hx. apply binary_canon; auto. }
  rewrite !Forall_app in B. destruct B as (Ba & Bb & Bo).
  pose proof (reduce_bits _ Ba) as Ra. pose proof (reduce_bits _ Bb) as Rb. pose proof (reduce_bits _ Bo) as Ro.
  rewrite La in Ra. rewrite Lb in Rb. rewrite Lo in Ro. change (2 ^ Z.of_nat 32) with 4294967296 in *.
  inversion Zr as [|? ? Za Zr1]; subst. inversion Zr1 as [|? ? Zb' Zr2]; subst. inversion Zr2 as [|? ? Zo _]; subst.
  assert (Q : forall x y, 0 <= x < 4294967296 -> canon y -> fzero (x - y) -> y = x).
  { intros x y Hx Hy Hz. symmetry. apply fzero_canon; auto. unfold canon, P in *. lia. }
  apply Q in Za; auto. apply Q in Zb'; auto. apply Q in Zo; auto. unfold u32.
  rewrite Za, Zb', Zo. repeat split; try lia. apply reduce_lxor; try congruence; auto.
  rewrite List.Forall_map in Zx. rewrite Forall_forall in *. intros (a & b & o) I. specialize (Zx _ I). cbn beta iota in Zx.
  pose proof (in_combine_l _ _ _ _ I) as Ia. pose proof (in_combine_r _ _ _ _ I) as Ibo.
  pose proof (in_combine_l _ _ _ _ Ibo) as Ib. pose proof (in_combine_r _ _ _ _ Ibo) as Io.
  specialize (Ba _ Ia). specialize (Bb _ Ib). specialize (Bo _ Io). unfold bit in *.
  apply fzero_mul in Zx as [Zx|Zx]; apply fzero_small in Zx; try (unfold P; lia); auto.
Qed.

Lemma reduce_to_bits_aux v : forall n k, 0 <= v -> reduce_with_powers (map (fun j => b2z (Z.testbit v (Z.of_nat j))) (seq k n)) 2
  = (v / 2 ^ Z.of_nat k) mod 2 ^ Z.of_nat n.
Proof.
  induction n as [|n IH]; intros k Hv; [cbn; rewrite Z.mod_1_r; reflexivity|].
  cbn [seq map reduce_with_powers fold_right]. fold (reduce_with_powers (map (fun j => b2z (Z.testbit v (Z.of_nat j))) (seq (S k) n)) 2).
  rewrite IH by auto. rewrite !Nat2Z.inj_succ, !Z.pow_succ_r by lia.
  set (q := v / 2 ^ Z.of_nat k).
  replace (v / (2 * 2 ^ Z.of_nat k)) with (q / 2).
  2:{ unfold q. rewrite Zdiv.Zdiv_Zdiv by lia. f_equal. lia. }
  assert (E : b2z (Z.testbit v (Z.of_nat k)) = q mod 2).
  { unfold q.
    pose proof (Z.testbit_spec' v (Z.of_nat k) ltac:(lia)) as T. rewrite <- T. destruct (Z.testbit v (Z.of_nat k)); reflexivity. }
  rewrite E. rewrite Z.rem_mul_r by lia. lia.
Qed.
Lemma reduce_to_bits v : u32 v -> reduce_with_powers (to_bits v) 2 = v.
Proof.
  intros H. unfold to_bits. rewrite reduce_to_bits_aux by (unfold u32 in H; lia). cbn [Z.of_nat]. rewrite Z.div_1_r.
  apply Z.mod_small. exact H.
Qed.
Lemma to_bits_bit v : Forall bit (to_bits v).
Proof.
  unfold to_bits. rewrite List.Forall_map. apply Forall_forall. intros j _. unfold bit. destruct (Z.testbit _ _); cbn; auto.
Qed.
Lemma lxor_u32 a b : u32 a -> u32 b -> u32 (Z.lxor a b).
Proof.
  intros A B. unfold u32 in *. split; [apply Z.lxor_nonneg; lia|].
  assert (Z.lxor a b = (Z.lxor a b) mod 2 ^ 32) as ->; [|apply Z.mod_pos_bound; lia].
  apply Z.bits_inj'. intros n Hn. destruct (Z.ltb_spec n 32).
  - rewrite Z.mod_pow2_bits_low by lia. reflexivity.
  - rewrite Z.mod_pow2_bits_high by lia. rewrite Z.lxor_spec.
    rewrite <- (Z.mod_small a (2 ^ 32)), <- (Z.mod_small b (2 ^ 32)) by lia. rewrite !Z.mod_pow2_bits_high by lia. reflexivity.
Qed.
Lemma xor_complete a b : u32 a -> u32 b ->
  xor_row_typed (gen_xor_row a b (Z.lxor a b)) /\ all_zero (xor_constraints (gen_xor_row a b (Z.lxor a b))).
Proof.
  intros A B. pose proof (lxor_u32 a b A B) as O.
  assert (CB : forall l, Forall bit l -> Forall canon l).
  { intros l. apply Forall_impl. unfold bit, canon, P. lia. }
  assert (CU : forall x, u32 x -> canon x) by (unfold u32, canon, P; lia).
  split.
  - constructor; cbn [gen_xor_row x_exec x_a x_b x_out xl_a xl_b xl_out].
    + unfold to_bits. rewrite !map_length. auto.
    + constructor; [unfold canon, P; lia|]. do 3 (constructor; [auto|]).
      apply Forall_app; split; [apply CB, to_bits_bit|]. apply Forall_app; split; apply CB, to_bits_bit.
  - unfold all_zero, xor_constraints. cbn [gen_xor_row x_a x_b x_out xl_a xl_b xl_out].
    rewrite !Forall_app. repeat split.
    + rewrite List.Forall_map. rewrite !Forall_app. repeat split; eapply Forall_impl; try apply to_bits_bit; apply is_binary_01.
    + rewrite !reduce_to_bits by auto. rewrite !Z.sub_diag. repeat constructor.
    + unfold to_bits. rewrite List.Forall_map. apply Forall_forall.
      intros (x & y & z) I.
      assert (E : exists j, x = b2z (Z.testbit a (Z.of_nat j)) /\ y = b2z (Z.testbit b (Z.of_nat j)) /\
                   z = b2z (Z.testbit (Z.lxor a b) (Z.of_nat j))).
      { revert I. generalize (seq 0 32). induction l as [|j l IH]; cbn; [tauto|].
        intros [E|I]; [injection E as <- <- <-; eauto|auto]. }
      destruct E as (j & -> & -> & ->). rewrite Z.lxor_spec.
      destruct (Z.testbit a _), (Z.testbit b _); reflexivity.
Qed.

(** ** Bit shift *)
Lemma shift_prefix t : trace_sat shift_air t -> Forall shift_canon t -> max_rows t ->
  forall i r, t !! i = Some r -> exists k : nat, (k <= i)%nat /\ s_amount r = Z.of_nat k /\ fzero (s_multiplier r - 2 ^ Z.of_nat k)
    /\ (forall j, (j <= k)%nat -> exists i' r', t !! i' = Some r' /\ s_amount r' = Z.of_nat j)
    /\ (forall i' r', (i' <= i)%nat -> t !! i' = Some r' -> s_amount r' <= Z.of_nat k).
Proof.
  intros S C M. induction i as [|i IH]; intros r E.
  - exists 0%nat. split; [lia|]. pose proof (ts_first _ _ S r E) as F. cbn in F.
    inversion F as [|? ? F1 F2]; subst. inversion F2 as [|? ? F3 _]; subst.
    rewrite Forall_forall in C. destruct (C r) as [Ca _]; [apply elem_of_list_In; eapply elem_of_list_lookup_2; eauto|].
    apply fzero_small in F1; [|unfold canon in Ca; lia].
    split; [lia|]. split; [exact F3|]. split.
    + intros j Hj. exists 0%nat, r. split; auto. lia.
    + intros i' r' Hi E'. replace i' with 0%nat in E' by lia. rewrite E in E'. injection E' as <-. lia.
  - destruct (t !! i) as [r0|] eqn:E0.
    2:{ apply lookup_ge_None in E0. apply lookup_lt_Some in E. lia. }
    destruct (IH r0 eq_refl) as (k & Hk & A0 & M0 & W & Mon).
    assert (Ca : canon (s_amount r)).
    { rewrite Forall_forall in C. destruct (C r) as [Ca _]; [apply elem_of_list_In; eapply elem_of_list_lookup_2; eauto|auto]. }
    pose proof (lookup_lt_Some _ _ _ E) as Li. unfold max_rows in M.
    pose proof (ts_transition _ _ S i r0 r E0 E) as T. cbn in T.
    inversion T as [|? ? T1 T2]; subst. inversion T2 as [|? ? T3 _]; subst. clear T T2.
    apply fzero_mul in T1 as [D|D].
    + apply fzero_small in D; [|unfold canon, P in *; lia].
      exists k. split; [lia|]. split; [lia|]. split.
      { replace (s_amount r) with (s_amount r0) in T3 by lia. rewrite Z.sub_diag, Z.add_0_r, Z.mul_1_l in T3.
        replace (s_multiplier r - 2 ^ Z.of_nat k) with ((s_multiplier r - s_multiplier r0) + (s_multiplier r0 - 2 ^ Z.of_nat k)) by lia.
        apply fzero_add; auto. }
      split; [exact W|]. intros i' r' Hi E'. destruct (decide (i' = Datatypes.S i)) as [->|N].
      * rewrite E in E'. injection E' as <-. lia.
      * apply (Mon i'); auto; lia.
    + apply fzero_small in D; [|unfold canon, P in *; lia].
      exists (Datatypes.S k). split; [lia|]. split; [lia|]. split.
      { replace (s_amount r) with (s_amount r0 + 1) in T3 by lia.
        replace (1 + (s_amount r0 + 1 - s_amount r0)) with 2 in T3 by lia.
        rewrite Nat2Z.inj_succ, Z.pow_succ_r by lia.
        replace (s_multiplier r - 2 * 2 ^ Z.of_nat k) with ((s_multiplier r - 2 * s_multiplier r0)
          + 2 * (s_multiplier r0 - 2 ^ Z.of_nat k)) by lia.
        apply fzero_add; auto. apply fzero_mul_r; auto. }
      split.
      * intros j Hj. destruct (decide (j = Datatypes.S k)) as [->|N]; [exists (Datatypes.S i), r; split; auto; lia|].
        apply W; lia.
      * intros i' r' Hi E'. destruct (decide (i' = Datatypes.S i)) as [->|N].
        -- rewrite E in E'. injection E' as <-. lia.
        -- pose proof (Mon i' r' ltac:(lia) E'). lia.
Qed.
Lemma shift_sound t : trace_sat shift_air t -> Forall shift_canon t -> max_rows t ->
  (forall r, In r t -> 0 <= s_amount r <= 31 /\ s_multiplier r = 2 ^ s_amount r) /\
  (forall k, 0 <= k <= 31 -> exists r, In r t /\ s_amount r = k /\ s_multiplier r = 2 ^ k).
Proof.
  intros S C M.
  destruct (stdpp.list.last t) as [l|] eqn:EL.
  2:{ apply last_None in EL. destruct (ts_nonempty _ _ S EL). }
  rewrite last_lookup in EL. pose proof (ts_last _ _ S l) as TL. rewrite last_lookup in TL. specialize (TL EL). cbn in TL.
  inversion TL as [|? ? T1 _]; subst.
  destruct (shift_prefix t S C M _ _ EL) as (k & Hk & Ak & _ & W & Mon).
  pose proof (lookup_lt_Some _ _ _ EL) as Ll. unfold max_rows in M.
  assert (K31 : Z.of_nat k = 31).
  { apply fzero_small in T1; [lia|]. unfold P. lia. }
  assert (X : forall r, In r t -> 0 <= s_amount r <= 31 /\ s_multiplier r = 2 ^ s_amount r).
  { intros r Hr. pose proof Hr as Hr'. apply elem_of_list_In, elem_of_list_lookup in Hr' as [i E].
    destruct (shift_prefix t S C M _ _ E) as (j & Hj & Aj & Mj & _).
    pose proof (lookup_lt_Some _ _ _ E) as Lr.
    pose proof (Mon i r ltac:(lia) E) as Le.
    assert (B : 0 <= s_amount r <= 31) by lia. split; auto.
    rewrite Forall_forall in C. destruct (C r Hr) as [_ Cm]. apply fzero_canon; auto.
    2:{ rewrite Aj. exact Mj. }
    unfold canon. split; [apply Z.pow_nonneg; lia|].
    apply Z.le_lt_trans with (2 ^ 31); [apply Z.pow_le_mono_r; lia|unfold P; lia]. }
  split; auto. intros j Hj. destruct (W (Z.to_nat j) ltac:(lia)) as (i & r & E & A).
  assert (I : In r t) by (apply elem_of_list_In; eapply elem_of_list_lookup_2; eauto).
  exists r. split; auto. destruct (X r I) as [_ Y]. rewrite Y, A. rewrite Z2Nat.id by lia. auto.
Qed.

(** All 32 generated rows, whatever the multiplicities *)
Lemma shift_complete cpu_trace : trace_sat shift_air (generate_shift_trace cpu_trace).
Proof.
  unfold generate_shift_trace. set (f := fun k => mkShift _ _ _).
  assert (A : forall k, s_amount (f k) = Z.of_nat k /\ s_multiplier (f k) = 2 ^ Z.of_nat k) by (intros; split; reflexivity).
  clearbody f.
  assert (LK : forall i r, map f (seq 0 32) !! i = Some r -> (i < 32)%nat /\ r = f i).
  { intros i r E. rewrite list_lookup_fmap in E. destruct (seq 0 32 !! i) as [j|] eqn:Ej; [|discriminate].
    apply lookup_seq in Ej as [-> Hi]. cbn in E. injection E as <-. auto. }
  constructor.
  - discriminate.
  - intros r E. apply LK in E as [_ ->]. cbn. destruct (A 0%nat) as [-> ->]. repeat constructor.
  - intros; constructor.
  - intros i r r' E E'. apply LK in E as [Hi ->]. apply LK in E' as [_ ->]. cbn.
    destruct (A i) as [-> ->]. destruct (A (Datatypes.S i)) as [-> ->].
    rewrite Nat2Z.inj_succ, Z.pow_succ_r by lia. constructor; [|constructor; [|constructor]].
    + replace (Z.succ _ - _) with 1 by lia. reflexivity.
    + replace (Z.succ _ - _) with 1 by lia. rewrite Z.sub_diag. reflexivity.
  - intros r E. rewrite last_lookup in E. apply LK in E as [_ ->]. cbn [shift_air a_last].
    rewrite map_length, seq_length. change (Init.Nat.pred 32) with 31%nat. destruct (A 31%nat) as [-> ->].
    repeat constructor.
Qed.

(** ** ADD *)
Lemma add_sound r : canon (ad_dst r) -> u32 (ad_op1 r) -> u32 (ad_op2 r + ad_imm r) -> u32 (ad_dst r) ->
  all_zero (add_constraints r) -> ad_dst r = (ad_op1 r + ad_op2 r + ad_imm r) mod 2 ^ 32.
Proof.
  intros C A B D Z0. inversion Z0 as [|? ? H _]; subst. unfold u32 in *.
  apply fzero_mul in H as [H|H]; apply fzero_small in H; unfold P; lia.
Qed.

(** ** The byte table *)
Lemma u8_sound t : trace_sat u8_air t -> Forall (fun r => canon (u8_value r)) t -> max_rows t ->
  forall v, u8 v <-> exists r, In r t /\ u8_value r = v.
Proof.
  intros S C M.
  assert (W : forall i r, t !! i = Some r -> u8_value r = Z.of_nat i).
  { rewrite Forall_forall in C. unfold max_rows in M. induction i as [|i IH]; intros r E.
    - pose proof (ts_first _ _ S r E) as F. inversion F as [|? ? F1 _]; subst.
      apply fzero_small in F1; [lia|]. pose proof (C r (proj1 (elem_of_list_In _ _) (elem_of_list_lookup_2 _ _ _ E))) as Cr.
      unfold canon in Cr. lia.
    - destruct (t !! i) as [r0|] eqn:E0.
      2:{ apply lookup_ge_None in E0. apply lookup_lt_Some in E. lia. }
      specialize (IH r0 eq_refl). pose proof (ts_transition _ _ S i r0 r E0 E) as T. inversion T as [|? ? T1 _]; subst.
      pose proof (C r (proj1 (elem_of_list_In _ _) (elem_of_list_lookup_2 _ _ _ E))) as Cr.
      pose proof (lookup_lt_Some _ _ _ E) as Li. apply fzero_small in T1; unfold canon, P in *; lia. }
  assert (L : length t = 256%nat).
  { destruct (stdpp.list.last t) as [l|] eqn:EL.
    2:{ apply last_None in EL. destruct (ts_nonempty _ _ S EL). }
    pose proof (ts_last _ _ S l EL) as TL. inversion TL as [|? ? T1 _]; subst. rewrite last_lookup in EL.
    pose proof (W _ _ EL) as WL. pose proof (lookup_lt_Some _ _ _ EL) as Ll. unfold max_rows in M.
    apply fzero_small in T1; unfold P; lia. }
  intros v. unfold u8. split.
  - intros Hv. destruct (lookup_lt_is_Some_2 t (Z.to_nat v)) as [r E]; [lia|]. exists r.
    split; [apply elem_of_list_In; eapply elem_of_list_lookup_2; eauto|]. rewrite (W _ _ E). lia.
  - intros (r & I & <-). apply elem_of_list_In, elem_of_list_lookup in I as [i E]. rewrite (W _ _ E).
    apply lookup_lt_Some in E. lia.
Qed.

(** ** Range check *)
Lemma rc_value_u32 r : length (rc_limbs r) = 4%nat -> Forall u8 (rc_limbs r) -> u32 (rc_value r).
Proof.
  intros L F. destruct (rc_limbs r) as [|a [|b [|c [|d [|? ?]]]]] eqn:E; try discriminate.
  unfold rc_value. rewrite E. cbn [combine seq map]. rewrite !sumZ_cons. change (sumZ []) with 0.
  inversion F as [|? ? A F1]; subst. inversion F1 as [|? ? B F2]; subst. inversion F2 as [|? ? C F3]; subst.
  inversion F3 as [|? ? D _]; subst. change (8 * Z.of_nat 0) with 0. change (8 * Z.of_nat 1) with 8. change (8 * Z.of_nat 2) with 16.
  change (8 * Z.of_nat 3) with 24. change (2 ^ 0) with 1. change (2 ^ 8) with 256. change (2 ^ 16) with 65536.
  change (2 ^ 24) with 16777216. unfold u8, u32 in *. lia.
Qed.
Lemma rc_u8_in t r k : In r t -> (k < 4)%nat -> In ([nth k (rc_limbs r) 0], rc_mult r) (rc_u8_looking t).
Proof.
  intros I Hk. unfold rc_u8_looking. apply in_flat_map. exists k. split; [apply in_seq; lia|].
  apply (in_map (fun r => ([nth k (rc_limbs r) 0], rc_mult r))); auto.
Qed.
Lemma tuple_key1 a b : tuple_key [a] = tuple_key [b] -> a mod P = b mod P.
Proof. cbn. intros E. injection E as E. exact E. Qed.

Lemma rc_sound u8t rct others looking v :
  trace_sat u8_air u8t -> Forall (fun r => canon (u8_value r)) u8t -> max_rows u8t ->
  Forall rc_row_typed rct -> Forall (fun x => 0 <= snd x) others ->
  ctl_ok (rc_u8_looking rct ++ others) (u8_looked u8t) -> mult_total (rc_u8_looking rct ++ others) < P ->
  ctl_ok looking (rc_looked rct) -> Forall (fun x => 0 <= snd x) looking -> mult_total looking < P ->
  forall f, In ([v], f) looking -> 0 < f -> u32 (v mod P).
Proof.
  intros S C M T O C8 L8 CL B L f I Pf.
  destruct (ctl_member_total _ _ _ _ CL B L I Pf) as (tt & m & It & K & Nz). unfold rc_looked in It. apply in_map_iff in It as (r & E & Ir).
  injection E as <- <-. apply tuple_key1 in K. rewrite Forall_forall in T. destruct (T r Ir) as [Len Can].
  inversion Can as [|? ? Cm Cl]; subst.
  assert (NN : Forall (fun x : list Z * Z => 0 <= snd x) (rc_u8_looking rct ++ others)).
  { apply Forall_app. split; auto. apply Forall_forall. intros (x & g) Hx. unfold rc_u8_looking in Hx.
    apply in_flat_map in Hx as (k & _ & Hx). apply in_map_iff in Hx as (r' & E & I'). injection E as <- <-. cbn.
    destruct (T r' I') as [_ C']. inversion C' as [|? ? Cm' _]; subst. unfold canon in Cm'. lia. }
  assert (Mp : 0 < rc_mult r).
  { unfold canon in Cm. assert (rc_mult r <> 0); [|lia]. intros E. apply Nz. rewrite E. apply fzero_0. }
  assert (U : forall k, (k < 4)%nat -> u8 (nth k (rc_limbs r) 0)).
  { intros k Hk.
    destruct (ctl_member_total _ _ [nth k (rc_limbs r) 0] (rc_mult r) C8 NN L8 (in_or_app _ _ _ (or_introl (rc_u8_in rct r k Ir Hk))) Mp)
      as (t8 & m8 & I8 & K8 & _). unfold u8_looked in I8. apply in_map_iff in I8 as (r8 & E8 & I8). injection E8 as <- <-.
    apply tuple_key1 in K8. rewrite Forall_forall in C. pose proof (C r8 I8) as Cv.
    assert (Cn : canon (nth k (rc_limbs r) 0)) by (rewrite Forall_forall in Cl; apply Cl, nth_In; lia).
    unfold canon in Cv, Cn. rewrite !Z.mod_small in K8 by lia. apply (u8_sound u8t S (proj2 (Forall_forall _ _) C) M). eauto. }
  rewrite <- K. assert (V : u32 (rc_value r)).
  { apply rc_value_u32; auto. apply Forall_forall. intros x Hx. apply In_nth with (d := 0) in Hx as (k & Hk & <-). apply U. lia. }
  rewrite Z.mod_small; auto. unfold u32, P in *. lia.
Qed.
Lemma rc_complete v m : u32 v -> canon m -> let r := mkRc (limbs_from_u32 v) m in
  rc_row_typed r /\ rc_value r = v /\ Forall u8 (rc_limbs r).
Proof.
  intros Hv Hm r. unfold r, rc_row_typed, rc_value, limbs_from_u32, to_le_bytes32. cbn [rc_limbs rc_mult length combine seq map].
  rewrite !sumZ_cons. change (sumZ []) with 0. change (8 * Z.of_nat 0) with 0. change (8 * Z.of_nat 1) with 8. change (8 * Z.of_nat 2) with 16.
  change (8 * Z.of_nat 3) with 24. change (2 ^ 0) with 1. change (2 ^ 8) with 256. change (2 ^ 16) with 65536.
  change (2 ^ 24) with 16777216. unfold u32 in Hv.
  assert (U : forall x, u8 (x mod 256)) by (intros x; apply Z.mod_pos_bound; lia).
  assert (CU : forall x, u8 x -> canon x) by (unfold u8, canon, P; lia).
  split; [split; [reflexivity|repeat constructor; auto; try apply Hm; apply CU, U]|].
  split; [clear -Hv; lia|]. repeat constructor; try (apply U).
Qed.

(** The forged range check: -1 is accepted as a 32-bit value. *)
Definition forged_rc : list rc_row := [mkRc [P - 1; 0; 0; 0] 1; mkRc [P - 1; 1; 0; 0] (P - 1); mkRc [255; 0; 0; 0] 1].
Definition forged_u8 : list u8_row :=
  map (fun v => mkU8 (Z.of_nat v) (if (v =? 0)%nat then 4 else if (v =? 1)%nat then P - 1 else if (v =? 255)%nat then 1 else 0)) (seq 0 256).
Lemma forged_u8_sat : trace_sat u8_air forged_u8.
Proof.
  unfold forged_u8. set (f := fun v => mkU8 _ _). assert (A : forall k, u8_value (f k) = Z.of_nat k) by reflexivity. clearbody f.
  assert (LK : forall i r, map f (seq 0 256) !! i = Some r -> r = f i).
  { intros i r E. rewrite list_lookup_fmap in E. destruct (seq 0 256 !! i) as [j|] eqn:Ej; [|discriminate].
    apply lookup_seq in Ej as [-> Hi]. cbn in E. injection E as <-. auto. }
  constructor.
  - discriminate.
  - intros r E. apply LK in E as ->. cbn [u8_air a_first]. rewrite A. repeat constructor.
  - intros; constructor.
  - intros i r r' E E'. apply LK in E as ->. apply LK in E' as ->. cbn [u8_air a_transition]. rewrite !A.
    replace (_ - _ - 1) with 0 by lia. repeat constructor.
  - intros r E. rewrite last_lookup in E. apply LK in E as ->. rewrite map_length, seq_length. cbn [u8_air a_last]. rewrite A. repeat constructor.
Qed.
Lemma forged_ctl : ctl_ok [([P - 1], 1)] (rc_looked forged_rc) /\ ctl_ok (rc_u8_looking forged_rc) (u8_looked forged_u8).
Proof. split; apply ctl_check_ok; vm_compute; reflexivity. Qed.
