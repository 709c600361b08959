(** The Goldilocks field: integers modulo the prime p = 2^64 - 2^32 + 1 (plonky2's GoldilocksField::ORDER).
    A field element is its canonical representative; an expression is zero in the field when it is 0 modulo p. *)
From Coq Require Export ZArith Lia List Bool.
From Coq Require Import Znumtheory.
Open Scope Z_scope.
Ltac Zify.zify_post_hook ::= Z.div_mod_to_equations.

Definition P : Z := 18446744069414584321.
Definition fzero (x : Z) : Prop := x mod P = 0.
Definition canon (x : Z) : Prop := 0 <= x < P.

(** modular exponentiation, for the certificate only *)
Fixpoint pow_mod (a : Z) (e : positive) : Z :=
  match e with
  | xH => a mod P
  | xO e' => let r := pow_mod a e' in (r * r) mod P
  | xI e' => let r := pow_mod a e' in ((r * r) mod P * a) mod P
  end.
Lemma pow_mod_ok a e : pow_mod a e = (a ^ Zpos e) mod P.
Proof.
  induction e as [e IH|e IH|]; cbn [pow_mod].
  - rewrite IH. rewrite Pos2Z.inj_xI. replace (2 * Zpos e + 1) with (Zpos e + Zpos e + 1) by lia.
    rewrite !Z.pow_add_r by lia. rewrite Z.pow_1_r.
    rewrite <- Zmult_mod. rewrite Z.mul_mod_idemp_l by (unfold P; lia). reflexivity.
  - rewrite IH. rewrite Pos2Z.inj_xO. replace (2 * Zpos e) with (Zpos e + Zpos e) by lia.
    rewrite !Z.pow_add_r by lia. rewrite <- Zmult_mod. reflexivity.
  - rewrite Z.pow_1_r. reflexivity.
Qed.

(** Proth certificate: with b = 7^(2^32-1), b^(2^31) = -1 mod P, so b has order 2^32 modulo any prime divisor q
    of P, hence q > 2^32. *)
Lemma NoDup_map_in {A B} (f : A -> B) l : (forall x y, In x l -> In y l -> f x = f y -> x = y) -> NoDup l -> NoDup (map f l).
Proof.
  intros F N. induction N as [|x l Hx N IH]; cbn; constructor.
  - intros I. apply in_map_iff in I as (y & E & Hy). apply Hx. rewrite (F x y); [exact Hy|left; reflexivity|right; exact Hy|symmetry; exact E].
  - apply IH. intros a c Ha Hc. apply F; right; assumption.
Qed.
Definition isH (x : Z) : Prop := x = 2 ^ 31.
Section Proth.
  Variables q b H : Z.          (* H stands for 2^31, kept abstract so that powers are never expanded *)
  Hypothesis Hq : 2 < q.

  Lemma pow_pow2 e t : 0 <= e -> 0 <= t -> b ^ e mod q = 1 -> b ^ (e * t) mod q = 1.
  Proof.
    intros He Ht E. rewrite Z.pow_mul_r by lia. set (c := b ^ e) in *. clearbody c. pattern t. apply natlike_ind; [| |exact Ht].
    - rewrite Z.pow_0_r. apply Z.mod_small; lia.
    - intros x Hx IH. rewrite Z.pow_succ_r by lia. rewrite Zmult_mod, E, IH by lia. apply Z.mod_small; lia.
  Qed.
  Lemma pow_sub e f : 0 <= e -> 0 <= f -> b ^ (e + f) mod q = 1 -> b ^ e mod q = 1 -> b ^ f mod q = 1.
  Proof.
    intros He Hf H1 H2. rewrite Z.pow_add_r, Zmult_mod, H2, Z.mul_1_l in H1 by lia.
    rewrite Z.mod_mod in H1 by lia. assumption.
  Qed.
  Lemma gcd_pred (Q : Z -> Prop) : (forall e f, 0 <= e -> 0 <= f -> Q (e + f) -> Q e -> Q f) ->
    forall n, 0 <= n -> forall e f, 0 <= e -> 0 <= f -> e + f < n -> Q e -> Q f -> Q (Z.gcd e f).
  Proof.
    intros HS n Hn. clear Hq. pattern n. apply natlike_ind; [| |exact Hn].
    - intros x y Hx Hy L. lia.
    - intros m Hm IH x y Hx Hy L H1 H2.
      destruct (Z.eq_dec x 0) as [->|]. { rewrite Z.gcd_0_l, Z.abs_eq; assumption. }
      destruct (Z.eq_dec y 0) as [->|]. { rewrite Z.gcd_0_r, Z.abs_eq; assumption. }
      destruct (Z.le_gt_cases x y).
      + rewrite <- Z.gcd_sub_diag_r. apply IH; [lia|lia|lia|assumption|].
        apply (HS x (y - x)); [lia|lia| |assumption]. replace (x + (y - x)) with y by lia. assumption.
      + rewrite Z.gcd_comm, <- Z.gcd_sub_diag_r, Z.gcd_comm. apply IH; [lia|lia|lia| |assumption].
        apply (HS y (x - y)); [lia|lia| |assumption]. replace (y + (x - y)) with x by lia. assumption.
  Qed.
  Lemma gcd_pow e : 0 <= e -> forall f, 0 <= f -> b ^ e mod q = 1 -> b ^ f mod q = 1 ->
    b ^ (Z.gcd e f) mod q = 1.
  Proof.
    intros He f Hf. apply (gcd_pred (fun e => b ^ e mod q = 1) pow_sub (e + f + 1)); lia.
  Qed.
  Lemma pow2_divisors k : 0 <= k -> forall x, 0 <= x -> (x | 2 ^ k) -> exists j, 0 <= j <= k /\ x = 2 ^ j.
  Proof.
    intros Hk. pattern k. apply natlike_ind; [| |exact Hk].
    - intros x Hx Dx. exists 0. split; [lia|]. apply Z.divide_1_r_nonneg in Dx; auto.
    - intros i Hi IH x Hx Dx. destruct (Z.Even_or_Odd x) as [[y Ey]|Ox].
      + subst x. rewrite Z.pow_succ_r in Dx by lia. apply Z.mul_divide_cancel_l in Dx; [|lia].
        destruct (IH y ltac:(lia) Dx) as (j & Hj & ->). exists (Z.succ j). split; [lia|]. rewrite Z.pow_succ_r by lia. reflexivity.
      + assert (R : rel_prime x 2).
        { apply rel_prime_sym, prime_rel_prime; [exact prime_2|]. intros [z Hz]. destruct Ox as [w Hw]. lia. }
        rewrite Z.pow_succ_r in Dx by lia. apply Gauss in Dx; [|exact R].
        destruct (IH x Hx Dx) as (j & Hj & ->). exists j. split; [lia|reflexivity].
  Qed.
  Hypothesis HHx : isH H.
  Lemma HH : H = 2 ^ 31. Proof. exact HHx. Qed.
  Hypothesis Hb : b ^ H mod q = q - 1.

  Lemma order_pow t : 0 < t < 2 * H -> b ^ t mod q <> 1.
  Proof.
    intros Ht E. assert (Hpos : 0 < H) by (rewrite HH; reflexivity).
    assert (H32 : b ^ (H + H) mod q = 1).
    { rewrite Z.pow_add_r, Zmult_mod, Hb by lia. clear -Hq.
      replace ((q - 1) * (q - 1)) with (1 + (q - 2) * q) by lia. rewrite Z.mod_add by lia. apply Z.mod_small; lia. }
    pose proof (gcd_pow t ltac:(lia) (H + H) ltac:(lia) E H32) as G.
    pose proof (Z.gcd_divide_r t (H + H)) as D. pose proof (Z.gcd_divide_l t (H + H)) as D1.
    pose proof (Z.gcd_nonneg t (H + H)) as N.
    set (g := Z.gcd t (H + H)) in *. clearbody g.
    assert (g <= t) by (apply Z.divide_pos_le; [lia|auto]).
    assert (D2 : (g | H)).
    { assert (D' : (g | 2 ^ 32)) by (replace (2 ^ 32) with (H + H) by (rewrite HH; reflexivity); exact D).
      destruct (pow2_divisors 32 ltac:(lia) g N D') as (j & Hj & Eg).
      destruct (Z.eq_dec j 32) as [->|]. { exfalso. assert (2 ^ 32 = 2 * H) by (rewrite HH; reflexivity). lia. }
      exists (2 ^ (31 - j)). rewrite HH, Eg, <- Z.pow_add_r by lia. f_equal. lia. }
    destruct D2 as [z Hz]. assert (0 <= z) by (clear -Hz N Hpos; nia).
    pose proof (pow_pow2 g z N ltac:(auto) G) as F. rewrite Z.mul_comm, <- Hz in F. rewrite Hb in F. lia.
  Qed.

  Lemma pow_nz e : 0 <= e < 2 * H -> b ^ e mod q <> 0.
  Proof.
    intros He E. assert (H32 : b ^ (H + H) mod q = 1).
    { rewrite Z.pow_add_r, Zmult_mod, Hb by lia. clear -Hq.
      replace ((q - 1) * (q - 1)) with (1 + (q - 2) * q) by lia. rewrite Z.mod_add by lia. apply Z.mod_small; lia. }
    replace (H + H) with (e + (H + H - e)) in H32 by lia. rewrite Z.pow_add_r, Zmult_mod, E in H32 by lia.
    rewrite Z.mul_0_l, Z.mod_0_l in H32 by lia. lia.
  Qed.
  Lemma pow_inj i j : 0 <= i < 2 * H -> 0 <= j < 2 * H -> b ^ i mod q = b ^ j mod q -> i = j.
  Proof.
    assert (G : forall i j, 0 <= i -> i < j -> j < 2 * H -> b ^ i mod q = b ^ j mod q -> False).
    { clear i j. intros i j Hi Hij Hj E.
      assert (H32 : b ^ (H + H) mod q = 1).
      { rewrite Z.pow_add_r, Zmult_mod, Hb by lia. clear -Hq.
        replace ((q - 1) * (q - 1)) with (1 + (q - 2) * q) by lia. rewrite Z.mod_add by lia. apply Z.mod_small; lia. }
      apply (order_pow (j - i)); [clear -Hi Hij Hj; lia|].
      apply (pow_sub (H + H)); [clear -Hi Hij Hj; lia|clear -Hi Hij Hj; lia| |exact H32].
      replace (H + H + (j - i)) with ((H + H - i) + j) by (clear; lia).
      rewrite Z.pow_add_r, Zmult_mod, <- E, <- Zmult_mod, <- Z.pow_add_r by (clear -Hi Hij Hj; lia).
      replace (H + H - i + i) with (H + H) by (clear; lia). exact H32. }
    intros Hi Hj E. destruct (Z.lt_trichotomy i j) as [L|[L|L]]; [exfalso|exact L|exfalso].
    - apply (G i j); [apply Hi|exact L|apply Hj|exact E].
    - apply (G j i); [apply Hj|exact L|apply Hi|symmetry; exact E].
  Qed.
  Lemma q_large : 2 * H < q.
  Proof.
    assert (Hpos : 0 < H) by (rewrite HH; reflexivity).
    set (l := map (fun n => b ^ Z.of_nat n mod q) (seq 0 (Z.to_nat (2 * H)))).
    set (m := map (fun n => Z.of_nat n + 1) (seq 0 (Z.to_nat (q - 1)))).
    assert (L : (length l <= length m)%nat).
    { apply NoDup_incl_length.
      - unfold l. apply NoDup_map_in.
        + intros x y Hx Hy E. apply in_seq in Hx, Hy. apply Nat2Z.inj. apply pow_inj; [clear -Hx; lia|clear -Hy; lia|exact E].
        + apply seq_NoDup.
      - intros x Hx. apply in_map_iff in Hx as (n & <- & Hn). apply in_seq in Hn.
        pose proof (pow_nz (Z.of_nat n) ltac:(lia)). pose proof (Z.mod_pos_bound (b ^ Z.of_nat n) q ltac:(lia)) as B.
        generalize dependent (b ^ Z.of_nat n mod q). intros y Hy B.
        apply in_map_iff. exists (Z.to_nat (y - 1)). split; [lia|]. apply in_seq. lia. }
    unfold l, m in L. rewrite !map_length, !seq_length in L. lia.
  Qed.
End Proth.

Lemma least_divisor n : 1 < n -> exists q, 1 < q /\ (q | n) /\ prime q.
Proof.
  intros Hn. assert (G : forall m, 0 <= m -> forall k, 1 < k -> k < m -> exists q, 1 < q /\ (q | k) /\ prime q).
  { intros m Hm. pattern m. apply natlike_ind; auto; [lia|].
    intros x Hx IH k Hk Hkx. destruct (prime_dec k) as [Pk|Nk].
    - exists k. split; [lia|]. split; [apply Z.divide_refl|auto].
    - destruct (not_prime_divide k Hk Nk) as (d & Hd & Dd). destruct (IH d ltac:(lia) ltac:(lia)) as (q & Q1 & Q2 & Q3).
      exists q. split; auto. split; auto. eapply Z.divide_trans; eauto. }
  apply (G (n + 1)); lia.
Qed.

Definition cert : Z := pow_mod 7 4294967295.
Lemma cert_half : pow_mod cert 2147483648 = P - 1.
Proof. vm_compute. reflexivity. Qed.

Lemma cert_exists : exists c h, isH h /\ c ^ h mod P = P - 1.
Proof.
  exists cert, (Zpos 2147483648). split; [reflexivity|]. exact (eq_trans (eq_sym (pow_mod_ok cert 2147483648)) cert_half).
Qed.
Lemma P_divisor_large q : prime q -> (q | P) -> 2 ^ 32 < q.
Proof.
  intros Hq [z Hz]. assert (q2 : 2 <= q) by (apply prime_ge_2; auto).
  assert (q <> 2) by (intros ->; unfold P in Hz; lia).
  destruct cert_exists as (c & h & Hh & E).
  replace (2 ^ 32) with (2 * h) by (rewrite Hh; reflexivity).
  apply (q_large q c h); [lia|exact Hh|].
  set (X := c ^ h) in *. clearbody X. clear Hh.
  pose proof (Z.div_mod X P ltac:(unfold P; lia)) as D. rewrite E in D.
  assert (D' : X = (q - 1) + (z * (X / P) + z - 1) * q) by (rewrite D at 1; rewrite Hz at 1 3; ring).
  rewrite D'. rewrite Z.mod_add by lia. apply Z.mod_small. lia.
Qed.

Lemma P_prime : prime P.
Proof.
  destruct (prime_dec P) as [|N]; auto. exfalso.
  destruct (not_prime_divide P ltac:(unfold P; lia) N) as (d & Hd & [e He]).
  assert (1 < e) by nia.
  destruct (least_divisor d ltac:(lia)) as (q & Q1 & Q2 & Q3). destruct (least_divisor e ltac:(lia)) as (r & R1 & R2 & R3).
  assert (2 ^ 32 < q) by (apply P_divisor_large; auto; rewrite He; apply Z.divide_mul_r; auto).
  assert (2 ^ 32 < r) by (apply P_divisor_large; auto; rewrite He; apply Z.divide_mul_l; auto).
  assert (q <= d) by (apply Z.divide_pos_le; auto; lia). assert (r <= e) by (apply Z.divide_pos_le; auto; lia).
  change (2 ^ 32) with 4294967296 in *. assert (4294967297 * 4294967297 <= e * d) by (apply Z.mul_le_mono_nonneg; lia).
  unfold P in He. lia.
Qed.

(** ** Field laws *)
Lemma fzero_mul a b : fzero (a * b) -> fzero a \/ fzero b.
Proof.
  unfold fzero. intros E. apply Z.mod_divide in E; [|unfold P; lia]. destruct (prime_mult P P_prime a b E) as [D|D];
    [left|right]; apply Z.mod_divide; auto; unfold P; lia.
Qed.
Lemma fzero_mul_l a b : fzero a -> fzero (a * b).
Proof. unfold fzero. intros E. rewrite Zmult_mod, E. reflexivity. Qed.
Lemma fzero_mul_r a b : fzero b -> fzero (a * b).
Proof. unfold fzero. intros E. rewrite Zmult_mod, E, Z.mul_0_r. reflexivity. Qed.
Lemma fzero_add a b : fzero a -> fzero b -> fzero (a + b).
Proof. unfold fzero. intros E F. rewrite Zplus_mod, E, F. reflexivity. Qed.
Lemma fzero_0 : fzero 0.
Proof. reflexivity. Qed.
Lemma fzero_small a : - P < a < P -> fzero a -> a = 0.
Proof. unfold fzero, P. intros H E. lia. Qed.
Lemma fzero_canon a b : canon a -> canon b -> fzero (a - b) -> a = b.
Proof. unfold canon. intros Ha Hb E. apply fzero_small in E; lia. Qed.
Lemma fzero_iff a : fzero a <-> exists k, a = k * P.
Proof. unfold fzero. rewrite Z.mod_divide by (unfold P; lia). reflexivity. Qed.

(** ** Inverses (Field::try_inverse of plonky2: extended Euclid here, any inverse is the inverse) *)
Fixpoint egcd (fuel : nat) (a b : Z) : Z * Z :=
  match fuel with
  | O => (1, 0)
  | S n => if b =? 0 then (1, 0) else let '(u, v) := egcd n b (a mod b) in (v, u - (a / b) * v)
  end.
Definition finv (x : Z) : Z := fst (egcd 200 (x mod P) P) mod P.

Lemma egcd_ok n : forall k a b, 0 <= k -> 0 <= a -> 0 <= b < 2 ^ k -> 2 * k < Z.of_nat n ->
  let '(u, v) := egcd n a b in a * u + b * v = Z.gcd a b.
Proof.
  induction n as [n IH] using lt_wf_ind. intros k a b Hk Ha Hb Hn.
  destruct n as [|n]; [lia|]. cbn [egcd]. destruct (Z.eqb_spec b 0) as [->|Nb].
  { rewrite Z.gcd_0_r, Z.abs_eq by lia. lia. }
  assert (Kp : 0 < k). { destruct (Z.eq_dec k 0) as [->|]; [|lia]. change (2 ^ 0) with 1 in Hb. lia. }
  destruct n as [|n]; [lia|].
  pose proof (Z.mod_pos_bound a b ltac:(lia)) as Ba. set (c := a mod b) in *.
  assert (Ec : a = b * (a / b) + c) by (apply Z.div_mod; lia).
  assert (Gab : Z.gcd a b = Z.gcd b c).
  { unfold c. rewrite (Z.gcd_comm b), Z.gcd_mod by lia. rewrite Z.gcd_comm. reflexivity. }
  assert (K2 : 2 ^ k = 2 * 2 ^ (k - 1)) by (rewrite <- Z.pow_succ_r by lia; f_equal; lia).
  cbn [egcd]. destruct (Z.eqb_spec c 0) as [C0|Nc].
  { rewrite Gab, C0, Z.gcd_0_r, Z.abs_eq by lia. rewrite Ec at 1. rewrite C0. lia. }
  pose proof (Z.mod_pos_bound b c ltac:(lia)) as Bb. set (d := b mod c) in *.
  assert (Ed : b = c * (b / c) + d) by (apply Z.div_mod; lia).
  assert (1 <= b / c) by (apply Z.div_le_lower_bound; lia).
  assert (Gbc : Z.gcd b c = Z.gcd c d).
  { unfold d. rewrite (Z.gcd_comm c), Z.gcd_mod by lia. rewrite Z.gcd_comm. reflexivity. }
  assert (Hd : 2 * d < b) by nia.
  pose proof (IH n ltac:(lia) (k - 1) c d ltac:(lia) ltac:(lia) ltac:(lia) ltac:(lia)) as R.
  destruct (egcd n c d) as [u v]. rewrite Gab, Gbc, <- R.
  set (q1 := a / b) in *. set (q2 := b / c) in *. clearbody q1 q2. rewrite Ec, Ed. ring.
Qed.
Lemma finv_ok x : ~ fzero x -> (x * finv x) mod P = 1 /\ canon (finv x).
Proof.
  intros N. unfold finv. pose proof (egcd_ok 200 64 (x mod P) P ltac:(lia) ltac:(apply Z.mod_pos_bound; unfold P; lia) ltac:(unfold P; cbn; lia) ltac:(lia)) as E.
  destruct (egcd 200 (x mod P) P) as [u v]. cbn [fst].
  assert (G : Z.gcd (x mod P) P = 1).
  { apply Zgcd_1_rel_prime, rel_prime_sym, prime_rel_prime; [exact P_prime|].
    intros D. apply N. apply Z.mod_divide in D; [|unfold P; lia]. rewrite Z.mod_mod in D by (unfold P; lia). exact D. }
  rewrite G in E. split; [|apply Z.mod_pos_bound; unfold P; lia].
  rewrite Z.mul_mod_idemp_r by (unfold P; lia). rewrite <- Z.mul_mod_idemp_l by (unfold P; lia).
  replace (x mod P * u) with (1 + (- v) * P) by lia. rewrite Z.mod_add by (unfold P; lia). reflexivity.
Qed.
Lemma finv_0 : finv 0 = 0.
Proof. vm_compute. reflexivity. Qed.
