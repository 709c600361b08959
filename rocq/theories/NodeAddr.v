(** Partial addresses: compare and common_ancestor. *)
From stdpp Require Import prelude.
From Verif Require Import Field NodeTreeModel NodeTreeSpec.
Open Scope Z_scope.

Lemma shr1 a : Z.shiftr a 1 = a / 2. Proof. rewrite Z.shiftr_div_pow2 by lia. auto. Qed.
Lemma land1 a : Z.land a 1 = a mod 2. Proof. change 1 with (Z.ones 1). rewrite Z.land_ones by lia. auto. Qed.
Lemma even_mod a : Z.even a = true <-> a mod 2 = 0.
Proof. rewrite Zmod_even. destruct (Z.even a); split; auto; discriminate. Qed.
Lemma pow_split h d : 0 <= h -> 0 < d -> 2 ^ (h + d) = 2 * 2 ^ (d - 1) * 2 ^ h.
Proof. intros. replace (h + d) with (1 + (d - 1) + h) by lia. rewrite !Z.pow_add_r by lia. auto. Qed.

(** the child's range against the parent's, in the child's units *)
Lemma child_cases pa ca h d : 0 <= h -> 0 < d -> 0 <= ca -> 
  (ca / 2 ^ d < pa -> (ca + 1) * 2 ^ h <= pa * 2 ^ (h + d)) /\
  (pa < ca / 2 ^ d -> (pa + 1) * 2 ^ (h + d) <= ca * 2 ^ h) /\
  (ca / 2 ^ d = pa -> pa * 2 ^ (h + d) <= ca * 2 ^ h /\ (ca + 1) * 2 ^ h <= (pa + 1) * 2 ^ (h + d) /\
     (Z.testbit (Z.land ca (Z.shiftl 1 d - 1)) (d - 1) = false -> (ca + 1) * 2 ^ h <= pa * 2 ^ (h + d) + 2 ^ (h + d - 1)) /\
     (Z.testbit (Z.land ca (Z.shiftl 1 d - 1)) (d - 1) = true -> pa * 2 ^ (h + d) + 2 ^ (h + d - 1) <= ca * 2 ^ h)).
Proof.
  intros Ph Pd Pc. pose proof (Z.pow_pos_nonneg 2 h ltac:(lia) Ph) as Qh. pose proof (Z.pow_pos_nonneg 2 (d - 1) ltac:(lia) ltac:(lia)) as Qd.
  assert (Ed : 2 ^ d = 2 * 2 ^ (d - 1)) by (rewrite <- Z.pow_succ_r by lia; f_equal; lia).
  pose proof (Z.div_mod ca (2 ^ d) ltac:(lia)) as Dm. pose proof (Z.mod_pos_bound ca (2 ^ d) ltac:(lia)) as Bm.
  rewrite pow_split by lia. rewrite Z.shiftl_mul_pow2, Z.mul_1_l by lia.
  assert (El : 2 ^ d - 1 = Z.ones d) by (rewrite Z.ones_equiv; lia). rewrite El.
  assert (Em : 2 ^ (h + d - 1) = 2 ^ (d - 1) * 2 ^ h) by (rewrite <- Z.pow_add_r by lia; f_equal; lia). rewrite Em.
  rewrite Z.land_ones by lia. rewrite Ed in *.
  split; [|split].
  - intros L. nia.
  - intros L. nia.
  - intros <-. split; [nia|]. split; [nia|]. rewrite (Z.testbit_eqb (ca mod _)) by lia.
    set (r := ca mod (2 * 2 ^ (d - 1))) in *.
    assert (r / 2 ^ (d - 1) = 0 \/ r / 2 ^ (d - 1) = 1) as [E|E].
    { assert (0 <= r / 2 ^ (d - 1) < 2); [|lia]. split; [apply Z.div_pos; lia|]. apply Z.div_lt_upper_bound; lia. }
    + rewrite E. cbn. split; [|discriminate]. intros _. assert (r < 2 ^ (d - 1)) by (apply Z.div_small_iff in E; lia). nia.
    + rewrite E. cbn. split; [discriminate|]. intros _. pose proof (Z.div_mod r (2 ^ (d - 1)) ltac:(lia)). pose proof (Z.mod_pos_bound r (2 ^ (d - 1)) ltac:(lia)). nia.
Qed.

Lemma compare_ok x y : ba_ok x -> ba_ok y -> Z.abs (ba_h x - ba_h y) < 64 -> exists c, compare x y = Some c /\ relates x y c.
Proof.
  destruct x as [hx ax], y as [hy ay]. intros (Phx & Bx) (Phy & By) D. cbn in *. unfold compare. cbn [ba_h ba_a].
  destruct (Z.eqb_spec hx hy) as [<-|Nh].
  - rewrite !shr1, !land1. eexists. split; [reflexivity|].
    pose proof (Z.div_mod ax 2 ltac:(lia)). pose proof (Z.mod_pos_bound ax 2 ltac:(lia)).
    pose proof (Z.div_mod ay 2 ltac:(lia)). pose proof (Z.mod_pos_bound ay 2 ltac:(lia)).
    pose proof (Z.pow_pos_nonneg 2 hx ltac:(lia) Phx).
    destruct (Z.compare_spec (ax / 2) (ay / 2)) as [E|L|L].
    + destruct (Z.compare_spec (ax mod 2) (ay mod 2)); cbn.
      * f_equal. lia.
      * rewrite even_mod. lia.
      * rewrite even_mod. lia.
    + cbn. unfold hi, lo. cbn. rewrite even_mod. split; [nia|lia].
    + cbn. unfold hi, lo. cbn. rewrite even_mod. split; [nia|lia].
  - destruct (Z.ltb_spec hy hx) as [L|L]; cbn [ba_h ba_a].
    + destruct (Z.leb_spec 64 (hx - hy)); [lia|].
      destruct (child_cases ax ay hy (hx - hy) Phy ltac:(lia) ltac:(lia)) as (C1 & C2 & C3).
      rewrite Z.shiftr_div_pow2 by lia. replace (hy + (hx - hy)) with hx in * by lia.
      destruct (Z.compare_spec (ay / 2 ^ (hx - hy)) ax) as [E|E|E].
      * destruct (C3 E) as (D1 & D2 & D3 & D4). eexists. split; [reflexivity|].
        destruct (Z.testbit _ _); cbn; unfold hi, lo, mid, lo; cbn.
        -- specialize (D4 eq_refl). lia.
        -- specialize (D3 eq_refl). lia.
      * eexists. split; [reflexivity|]. cbn. unfold hi, lo. cbn. split; [auto|lia].
      * eexists. split; [reflexivity|]. cbn. unfold hi, lo. cbn. split; [auto|lia].
    + destruct (Z.leb_spec 64 (hy - hx)); [lia|].
      destruct (child_cases ay ax hx (hy - hx) Phx ltac:(lia) ltac:(lia)) as (C1 & C2 & C3).
      rewrite Z.shiftr_div_pow2 by lia. replace (hx + (hy - hx)) with hy in * by lia.
      destruct (Z.compare_spec (ax / 2 ^ (hy - hx)) ay) as [E|E|E].
      * destruct (C3 E) as (D1 & D2 & D3 & D4). eexists. split; [reflexivity|].
        destruct (Z.testbit _ _); cbn; unfold hi, lo, mid, lo; cbn.
        -- specialize (D4 eq_refl). lia.
        -- specialize (D3 eq_refl). lia.
      * eexists. split; [reflexivity|]. cbn. unfold hi, lo. cbn. split; [auto|lia].
      * eexists. split; [reflexivity|]. cbn. unfold hi, lo. cbn. split; [auto|lia].
Qed.
(** the relations exclude each other, so the comparison says exactly how the ranges lie *)
Lemma lo_lt_hi x : ba_ok x -> lo x < hi x.
Proof. intros (P & _). unfold lo, hi. pose proof (Z.pow_pos_nonneg 2 (ba_h x) ltac:(lia) P). nia. Qed.
Lemma mid_in x : ba_ok x -> 0 < ba_h x -> lo x < mid x < hi x.
Proof.
  intros (P & _) L. unfold mid, lo, hi. pose proof (Z.pow_pos_nonneg 2 (ba_h x - 1) ltac:(lia) ltac:(lia)).
  assert (E : 2 ^ ba_h x = 2 * 2 ^ (ba_h x - 1)) by (rewrite <- Z.pow_succ_r by lia; f_equal; lia). rewrite E. nia.
Qed.
Lemma same_h x y : ba_h x = ba_h y -> ba_ok x -> (hi x <= lo y -> ba_a x < ba_a y) /\ (ba_a x < ba_a y -> hi x <= lo y).
Proof. intros E (P & _). unfold hi, lo. rewrite <- E. pose proof (Z.pow_pos_nonneg 2 (ba_h x) ltac:(lia) P). nia. Qed.
Lemma relates_excl x y c c' : ba_ok x -> ba_ok y -> relates x y c -> relates x y c' -> c = c'.
Proof.
  intros Ox Oy. pose proof (lo_lt_hi x Ox). pose proof (lo_lt_hi y Oy).
  assert (Mx := mid_in x Ox). assert (My := mid_in y Oy). destruct Ox as (Px & Bx), Oy as (Py & By).
  assert (Sx : ba_h x = ba_h y -> ba_a x < ba_a y -> hi x <= lo y).
  { intros Eh L. unfold hi, lo. rewrite Eh. pose proof (Z.pow_pos_nonneg 2 (ba_h y)). nia. }
  assert (Sy : ba_h x = ba_h y -> ba_a y < ba_a x -> hi y <= lo x).
  { intros Eh L. unfold hi, lo. rewrite Eh. pose proof (Z.pow_pos_nonneg 2 (ba_h y)). nia. }
  destruct c, c'; cbn; intros R R'; auto; exfalso; try (subst y; lia); try tauto;
    repeat match goal with H : _ /\ _ |- _ => destruct H end; try lia;
    try (assert (hi x <= lo y) by (apply Sx; lia); lia); try (assert (hi y <= lo x) by (apply Sy; lia); lia).
Qed.

Lemma bitlen_spec v k : 0 <= v -> 0 <= k -> bitlen v <= k <-> v / 2 ^ k = 0.
Proof.
  intros Pv Pk. unfold bitlen. destruct (Z.eqb_spec v 0) as [->|N].
  - rewrite Z.div_0_l by (apply Z.pow_nonzero; lia). lia.
  - pose proof (Z.pow_pos_nonneg 2 k ltac:(lia) Pk). rewrite Z.div_small_iff by lia. rewrite (Z.log2_lt_pow2 v k) by lia. lia.
Qed.
Lemma bitlen_nonneg v : 0 <= bitlen v.
Proof. unfold bitlen. destruct (v =? 0); [lia|]. pose proof (Z.log2_nonneg v). lia. Qed.
Lemma bitlen_xor a b k : 0 <= a -> 0 <= b -> 0 <= k -> bitlen (Z.lxor a b) <= k <-> a / 2 ^ k = b / 2 ^ k.
Proof.
  intros. rewrite bitlen_spec by (auto; apply Z.lxor_nonneg; lia). rewrite <- !Z.shiftr_div_pow2 by lia.
  rewrite Z.shiftr_lxor, Z.lxor_eq_0_iff. tauto.
Qed.
Lemma div_pow2_add a m n : 0 <= m -> 0 <= n -> a / 2 ^ m / 2 ^ n = a / 2 ^ (m + n).
Proof. intros. rewrite Z.pow_add_r by lia. apply Z.div_div; [apply Z.pow_nonzero; lia|apply Z.pow_pos_nonneg; lia]. Qed.
(** the smallest node above both: no panic unless one of the shifts is by 64 or more *)
Lemma ancestor_ok x y : ba_ok x -> ba_ok y -> Z.abs (ba_h x - ba_h y) < 64 ->
  let h := Z.max (ba_h x) (ba_h y) in
  (bitlen (Z.lxor (ba_a x / 2 ^ (h - ba_h x)) (ba_a y / 2 ^ (h - ba_h y))) < 64 ->
  exists z, common_ancestor x y = Some z /\ above z x /\ above z y /\ forall w, above w x -> above w y -> above w z) /\
  (64 <= bitlen (Z.lxor (ba_a x / 2 ^ (h - ba_h x)) (ba_a y / 2 ^ (h - ba_h y))) -> common_ancestor x y = None).
Proof.
  destruct x as [hx ax], y as [hy ay]. intros (Phx & Bx) (Phy & By) D h. cbn in *.
  assert (Hh : hx <= h /\ hy <= h /\ (h = hx \/ h = hy)) by lia. clearbody h.
  unfold common_ancestor, parent. cbn [ba_h ba_a].
  replace (Z.max 0 (hy - hx)) with (h - hx) by lia. replace (Z.max 0 (hx - hy)) with (h - hy) by lia.
  replace (h - hx <? 64) with true by (symmetry; apply Z.ltb_lt; lia). replace (h - hy <? 64) with true by (symmetry; apply Z.ltb_lt; lia).
  cbn [ba_h ba_a]. rewrite !Z.shiftr_div_pow2 by lia.
  set (a := ax / 2 ^ (h - hx)). set (b := ay / 2 ^ (h - hy)).
  assert (Pa : 0 <= a) by (apply Z.div_pos; [lia|apply Z.pow_pos_nonneg; lia]). assert (Pb : 0 <= b) by (apply Z.div_pos; [lia|apply Z.pow_pos_nonneg; lia]).
  pose proof (bitlen_nonneg (Z.lxor a b)) as Pn. set (n := bitlen (Z.lxor a b)) in *.
  rewrite !Z.shiftr_div_pow2 by lia. split; intros L.
  - replace (n <? 64) with true by (symmetry; apply Z.ltb_lt; lia).
    assert (E : a / 2 ^ n = b / 2 ^ n) by (apply bitlen_xor; auto; unfold n; lia).
    rewrite bool_decide_eq_true_2 by (f_equal; [clear; ring|exact E]). eexists. split; [reflexivity|].
    unfold above. cbn [ba_h ba_a]. replace (hx + (h - hx) + n) with (h + n) by (clear; ring).
    assert (X1 : h + n - hx = h - hx + n) by (clear; ring). assert (X2 : h + n - hy = h - hy + n) by (clear; ring).
    assert (G1 : 0 <= h - hx) by lia. assert (G2 : 0 <= h - hy) by lia.
    assert (A1 : forall m, 0 <= m -> a / 2 ^ m = ax / 2 ^ (h - hx + m)) by (intros m Pm; apply div_pow2_add; auto).
    assert (A2 : forall m, 0 <= m -> b / 2 ^ m = ay / 2 ^ (h - hy + m)) by (intros m Pm; apply div_pow2_add; auto).
    assert (A3 : forall k, 0 <= k -> a / 2 ^ k = b / 2 ^ k -> n <= k) by (intros k Pk; apply bitlen_xor; auto).
    clearbody a b n. clear D Bx By L.
    split; [|split].
    + split; [clear -Hh Pn; lia|]. rewrite X1. symmetry. apply A1. auto.
    + split; [clear -Hh Pn; lia|]. rewrite X2, E. symmetry. apply A2. auto.
    + intros [hw aw]. cbn [ba_h ba_a]. intros (W1 & W2) (W3 & W4).
      assert (Lh : h <= hw) by (clear -Hh W1 W3; lia).
      assert (X3 : hw - hx = h - hx + (hw - h)) by (clear; ring). assert (X4 : hw - hy = h - hy + (hw - h)) by (clear; ring).
      assert (P2 : 0 <= hw - h) by (clear -Lh; lia).
      assert (n <= hw - h). { apply A3; [auto|]. rewrite A1, A2 by auto. rewrite <- X3, <- X4. congruence. }
      assert (P3 : h + n <= hw) by (clear -H; lia). assert (P4 : 0 <= hw - (h + n)) by (clear -P3; lia).
      split; [auto|]. rewrite div_pow2_add by auto. replace (n + (hw - (h + n))) with (hw - h) by (clear; ring).
      rewrite A1, <- X3 by auto. auto.
  - replace (n <? 64) with false by (symmetry; apply Z.ltb_ge; lia). auto.
Qed.
