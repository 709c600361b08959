(** Load and store rows of the CPU table. *)
From Verif Require Import CircuitSpec TableProofs CpuArith CpuProofs CpuSound CpuWitness CpuTrace.
Import RvSpec.
Open Scope Z_scope.
Ltac Zify.zify_post_hook ::= Z.div_mod_to_equations.

Lemma load_sound r a x1 x2 w us d s1 k : cpu_row_ok r -> carries r a (Load w us d s1 k) x1 x2 -> w <> wW ->
  0 <= c_mem_value_raw r < 2 ^ (8 * Z.of_nat (nbytes w)) ->
  (us = false -> c_dst_sign_bit r = b2z (2 ^ (8 * Z.of_nat (nbytes w) - 1) <=? c_mem_value_raw r)) ->
  c_dst_value r = if us then c_mem_value_raw r else sext (nbytes w) (c_mem_value_raw r).
Proof.
  intros OK C NW V SB. pose proof (ca_inst _ _ _ _ _ C) as CI.
  destruct (groups r OK) as (_ & _ & _ & _ & _ & _ & _ & G & _). unfold memory_constraints in G. inv_forall G.
  assert (CD : canon (c_dst_value r)) by (apply (col_canon r OK); in_cols).
  assert (CS : canon (c_dst_sign_bit r)) by (apply (col_canon r OK); in_cols).
  set (i := Load w us d s1 k) in *.
  rewrite (opf r a (lower a i) CI) in *. rewrite CI in *. unfold i in *.
  destruct w; [| |congruence]; destruct us; cbn [lower iop op_of_load] in *;
    repeat match goal with K : context [selv ?o ?s] |- _ => let v := eval vm_compute in (selv o s) in change (selv o s) with v in K end;
    cbn [nbytes inst_cols iop i_dst_signed b2z] in *;
    change (2 ^ (8 * Z.of_nat 1)) with 256 in *; change (2 ^ (8 * Z.of_nat 2)) with 65536 in *;
    change (2 ^ (8 * Z.of_nat 1 - 1)) with 128 in *; change (2 ^ (8 * Z.of_nat 2 - 1)) with 32768 in *; unfold sext.
  - change (dst_signed LBU) with false in Gc1. cbn [b2z] in Gc1. rewrite Z.sub_0_r, Z.mul_1_l in Gc1. apply fzero_small in Gc1; [|unfold canon, P in *; lia].
    rewrite Gc1, Z.mul_0_l, Z.add_0_r in Gc2. apply fz_mul1, fzero_small in Gc2; unfold canon, P in *; lia.
  - rewrite (SB eq_refl) in *. apply fz_mul1 in Gc2. change (2 ^ (8 * Z.of_nat 1 - 1)) with 128 in *. change (2 ^ (8 * Z.of_nat 1)) with 256 in *.
    destruct (Z.leb_spec 128 (c_mem_value_raw r)); destruct (Z.ltb_spec (c_mem_value_raw r) 128); try lia; cbn [b2z] in Gc2; apply fzero_small in Gc2; unfold word, M32, canon, P in *; lia.
  - change (dst_signed LHU) with false in Gc1. cbn [b2z] in Gc1. rewrite Z.sub_0_r, Z.mul_1_l in Gc1. apply fzero_small in Gc1; [|unfold canon, P in *; lia].
    rewrite Gc1, Z.mul_0_l, Z.add_0_r in Gc3. apply fz_mul1, fzero_small in Gc3; unfold canon, P in *; lia.
  - rewrite (SB eq_refl) in *. apply fz_mul1 in Gc3. change (2 ^ (8 * Z.of_nat 2 - 1)) with 32768 in *. change (2 ^ (8 * Z.of_nat 2)) with 65536 in *.
    destruct (Z.leb_spec 32768 (c_mem_value_raw r)); destruct (Z.ltb_spec (c_mem_value_raw r) 32768); try lia; cbn [b2z] in Gc3; apply fzero_small in Gc3; unfold word, M32, canon, P in *; lia.
Qed.

(** Byte and half-word stores, if the XOR triple of the row is a genuine one *)
Lemma store_sound r a x1 x2 w b s2 k : cpu_row_ok r -> carries r a (Store w b s2 k) x1 x2 -> w <> wW ->
  u32 (c_xor_b r) -> c_xor_out r = Z.lxor (c_xor_a r) (c_xor_b r) -> c_mem_value_raw r = x1 mod 2 ^ (8 * Z.of_nat (nbytes w)).
Proof.
  intros OK C NW U X. pose proof (ca_inst _ _ _ _ _ C) as CI. pose proof (ca_x1 _ _ _ _ _ C) as X1. pose proof (ca_u1 _ _ _ _ _ C) as U1.
  destruct (groups r OK) as (_ & _ & _ & _ & _ & _ & _ & G & _). unfold memory_constraints in G. inv_forall G.
  assert (CA : canon (c_xor_a r)) by (apply (col_canon r OK); in_cols).
  assert (CB : canon (c_xor_b r)) by (apply (col_canon r OK); in_cols).
  assert (CM : canon (c_mem_value_raw r)) by (apply (col_canon r OK); in_cols).
  set (i := Store w b s2 k) in *.
  rewrite (opf r a (lower a i) CI) in *. unfold i in *.
  destruct w; [| |congruence]; cbn [lower iop op_of_store] in *;
    repeat match goal with K : context [selv ?o ?s] |- _ => let v := eval vm_compute in (selv o s) in change (selv o s) with v in K end;
    unfold and_doubled in *;
    apply fz_mul1 in Gc4, Gc7; [apply fz_mul1 in Gc5; rename Gc5 into GB|apply fz_mul1 in Gc6; rename Gc6 into GB];
    (apply fzero_eq in Gc4; [|unfold u32, canon, P in *; lia]);
    (apply fzero_eq in GB; [|unfold u32, canon, P in *; lia]);
    rewrite X, Gc4, GB in Gc7; unfold u32 in U1; rewrite lxor_land_sum in Gc7 by lia; eapply and_half; try exact Gc7; auto;
    cbn [nbytes].
  - change 255 with (Z.ones 8). rewrite Z.land_ones by lia. unfold canon, P. lia.
  - change 255 with (Z.ones 8). rewrite Z.land_ones by lia. reflexivity.
  - change 65535 with (Z.ones 16). rewrite Z.land_ones by lia. unfold canon, P. lia.
  - change 65535 with (Z.ones 16). rewrite Z.land_ones by lia. reflexivity.
Qed.
