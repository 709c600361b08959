(** Lemmas about the recursive-proof circuits. *)
From stdpp Require Import prelude.
From Verif Require Import Field RecModel RecSpec.
Open Scope Z_scope.

(** ** digests *)
Lemma dig_ext a b : delems a = delems b -> a = b.
Proof. destruct a, b. cbn. intros E. injection E as -> -> -> ->. reflexivity. Qed.
Lemma delems_app_inj a b c d l m : delems a ++ delems b ++ l = delems c ++ delems d ++ m -> a = c /\ b = d /\ l = m.
Proof. destruct a, b, c, d. cbn. intros E. injection E as -> -> -> -> -> -> -> -> ->. auto. Qed.
Lemma pair_inj a b c d : delems a ++ delems b = delems c ++ delems d -> a = c /\ b = d.
Proof. destruct a, b, c, d. cbn. intros E. injection E as -> -> -> -> -> -> -> ->. auto. Qed.
Lemma fadd_0_l x : canon x -> fadd 0 x = x.
Proof. unfold fadd, canon. intros. rewrite Z.add_0_l. apply Z.mod_small. assumption. Qed.
Lemma fadd_0_r x : canon x -> fadd x 0 = x.
Proof. unfold fadd, canon. intros. rewrite Z.add_0_r. apply Z.mod_small. assumption. Qed.
Lemma dadd_0_l d : dig_ok d -> dadd dzero d = d.
Proof. intros (A & B & C & D). destruct d. cbn in *. unfold dadd. cbn. rewrite !fadd_0_l by assumption. reflexivity. Qed.
Lemma dadd_0_r d : dig_ok d -> dadd d dzero = d.
Proof. intros (A & B & C & D). destruct d. cbn in *. unfold dadd. cbn. rewrite !fadd_0_r by assumption. reflexivity. Qed.
Lemma dzero_ok : dig_ok dzero.
Proof. unfold dig_ok, canon, P; cbn; lia. Qed.
Lemma dadd_00 : dadd dzero dzero = dzero.
Proof. apply dadd_0_l, dzero_ok. Qed.
Lemma hash_is_zero_iff d : hash_is_zero d = true <-> d = dzero.
Proof. unfold hash_is_zero, dig_eqb. apply bool_decide_eq_true. Qed.
Lemma dig_eqb_iff a b : dig_eqb a b = true <-> a = b.
Proof. unfold dig_eqb. apply bool_decide_eq_true. Qed.

(** ** unbounded recursion *)
Section Unbounded.
  Context {A : Type} (c : ckt) (wf leaf : A -> Prop) (branch : A -> A -> A -> Prop) (other : nat -> vd * A -> Prop).
  Definition leaf' a := wf a /\ leaf a.
  Definition branch' l r a := wf a /\ branch l r a.

  Lemma acc_tree_gen d p : acc c wf leaf branch other d p -> forall v, p.1 = v -> v = VBranch c ->
    (d = VLeaf c -> leaf' p.2) /\
    (d = VBranch c -> exists tl tr, WfTree leaf' branch' (BNode tl tr) p.2).
  Proof.
    induction 1 as [v a W L|v ll rl l r a Al IHl Ar IHr W B|n v a W O]; cbn; intros w E Ew; subst w v.
    - split; [intros _; split; assumption|discriminate].
    - split; [discriminate|intros _].
      assert (G : forall (b : bool) x,
        ((if b then VLeaf c else VBranch c) = VLeaf c -> leaf' x) /\
        ((if b then VLeaf c else VBranch c) = VBranch c -> exists tl tr, WfTree leaf' branch' (BNode tl tr) x) ->
        exists t, WfTree leaf' branch' t x).
      { intros [] x [G1 G2]; [exists (BLeaf x); constructor; apply G1; reflexivity|].
        destruct (G2 eq_refl) as (tl & tr & T). exists (BNode tl tr). exact T. }
      destruct (G ll l (IHl _ eq_refl eq_refl)) as [tl Tl]. destruct (G rl r (IHr _ eq_refl eq_refl)) as [tr Tr].
      exists tl, tr. econstructor; [exact Tl|exact Tr|]. split; assumption.
    - split; discriminate.
  Qed.
  Lemma acc_tree a : acc c wf leaf branch other (VBranch c) (VBranch c, a) ->
    exists tl tr, WfTree leaf' branch' (BNode tl tr) a.
  Proof. intros X. apply (acc_tree_gen _ _ X _ eq_refl eq_refl). reflexivity. Qed.
  (** every such tree is accepted *)
  Lemma tree_acc_gen t a : WfTree leaf' branch' t a -> acc c wf leaf branch other (match t with BLeaf _ => VLeaf c | _ => VBranch c end) (VBranch c, a).
  Proof.
    induction 1 as [a [W L]|tl tr l r a Tl IHl Tr IHr [W B]]; [constructor; assumption|].
    apply (acc_branch _ _ _ _ _ _ (match tl with BLeaf _ => true | _ => false end) (match tr with BLeaf _ => true | _ => false end) l r); try assumption.
    - destruct tl; exact IHl.
    - destruct tr; exact IHr.
  Qed.
  (** with a stated verifier of the prover's choice anything the branch relation derives is accepted *)
  Lemma acc_forge n l r a : wf l -> wf r -> wf a -> other n (VAny n, l) -> other n (VAny n, r) -> branch l r a ->
    acc c wf leaf branch other (VBranch c) (VAny n, a).
  Proof. intros. apply (acc_branch _ _ _ _ _ _ false false l r); try assumption; constructor; assumption. Qed.
End Unbounded.

(** ** bytes *)
Lemma le8_val w : 0 <= w < 2 ^ 64 -> fold_right (fun b s => b + 256 * s) 0 (le8 w) = w.
Proof.
  intros Hw. unfold le8. cbn [map fold_right].
  change (2 ^ (8 * 0)) with 1. change (2 ^ (8 * 1)) with 256. change (2 ^ (8 * 2)) with 65536. change (2 ^ (8 * 3)) with 16777216.
  change (2 ^ (8 * 4)) with 4294967296. change (2 ^ (8 * 5)) with 1099511627776. change (2 ^ (8 * 6)) with 281474976710656.
  change (2 ^ (8 * 7)) with 72057594037927936. change (2 ^ 64) with 18446744073709551616 in Hw. lia.
Qed.
Lemma le8_length w : length (le8 w) = 8%nat.
Proof. reflexivity. Qed.
Lemma le8_inj w w' : 0 <= w < 2 ^ 64 -> 0 <= w' < 2 ^ 64 -> le8 w = le8 w' -> w = w'.
Proof. intros A B E. rewrite <- (le8_val w A), <- (le8_val w' B), E. reflexivity. Qed.

Lemma split_from_S n source lo tl : split_from (S (S n)) source (lo :: tl) <->
  exists rest, 0 <= lo < 256 /\ 0 <= rest < 2 ^ (8 * Z.of_nat (S n)) /\ (rest * 256 + lo) mod P = source /\ split_from (S n) rest tl.
Proof. reflexivity. Qed.
Lemma split_from_val n : forall source bs, (0 < n)%nat -> 0 <= source < 2 ^ (8 * Z.of_nat n) -> 2 ^ (8 * Z.of_nat n) <= P ->
  split_from n source bs -> length bs = n /\ Forall (fun b => 0 <= b < 256) bs /\ fold_right (fun b s => b + 256 * s) 0 bs = source.
Proof.
  induction n as [|n IH]; intros source bs Hn Hs HP Sp; [lia|].
  destruct n as [|n].
  - destruct bs as [|b [|]]; cbn in Sp; [contradiction| |].
    + subst b. change (2 ^ (8 * Z.of_nat 1)) with 256 in Hs. split; [reflexivity|]. split; [repeat constructor; lia|cbn; lia].
    + destruct Sp as (rest & _ & _ & _ & []).
  - destruct bs as [|lo tl]; [contradiction|]. apply split_from_S in Sp.
    destruct Sp as (rest & Hlo & Hr & E & Sp).
    assert (HP' : 2 ^ (8 * Z.of_nat (S n)) <= P).
    { etransitivity; [|exact HP]. apply Z.pow_le_mono_r; lia. }
    replace (8 * Z.of_nat (S (S n))) with (8 + 8 * Z.of_nat (S n)) in HP by lia. rewrite Z.pow_add_r in HP by lia. change (2 ^ 8) with 256 in HP.
    rewrite Z.mod_small in E by lia.
    destruct (IH rest tl ltac:(lia) Hr HP' Sp) as (L & F & V).
    split; [cbn; rewrite L; reflexivity|]. split; [constructor; assumption|]. cbn [fold_right]. rewrite V. lia.
Qed.
Lemma bytes_le8 bs : length bs = 8%nat -> Forall (fun b => 0 <= b < 256) bs ->
  exists w, 0 <= w < 2 ^ 64 /\ le8 w = bs /\ w = fold_right (fun b s => b + 256 * s) 0 bs.
Proof.
  intros L F. destruct bs as [|b0 [|b1 [|b2 [|b3 [|b4 [|b5 [|b6 [|b7 [|]]]]]]]]]; cbn in L; try lia. clear L.
  repeat match goal with X : Forall _ (_ :: _) |- _ => inversion X; clear X; subst end.
  match goal with X : Forall _ [] |- _ => clear X end.
  exists (b0 + 256 * (b1 + 256 * (b2 + 256 * (b3 + 256 * (b4 + 256 * (b5 + 256 * (b6 + 256 * (b7 + 256 * 0)))))))).
  split; [change (2 ^ 64) with 18446744073709551616; lia|]. split; [|reflexivity].
  unfold le8. cbn [map].
  change (2 ^ (8 * 0)) with 1. change (2 ^ (8 * 1)) with 256. change (2 ^ (8 * 2)) with 65536. change (2 ^ (8 * 3)) with 16777216.
  change (2 ^ (8 * 4)) with 4294967296. change (2 ^ (8 * 5)) with 1099511627776. change (2 ^ (8 * 6)) with 281474976710656.
  change (2 ^ (8 * 7)) with 72057594037927936.
  repeat f_equal; lia.
Qed.
Lemma split_bytes_spec x bs : canon x -> (split_bytes x bs <-> exists w, word_for x w /\ bs = le8 w).
Proof.
  intros C. split.
  - intros S. unfold split_bytes in S. destruct bs as [|lo tl]; [contradiction|]. apply split_from_S in S.
    destruct S as (rest & Hlo & Hr & E & Sp). change (2 ^ 8) with 256 in *.
    destruct (split_from_val 7 rest tl ltac:(lia) Hr) as (L & F & V); [vm_compute; discriminate|exact Sp|].
    destruct (bytes_le8 (lo :: tl)) as (w & Hw & E1 & E2); [cbn; rewrite L; reflexivity|constructor; assumption|].
    exists w. split; [|symmetry; exact E1]. split; [exact Hw|]. cbn [fold_right] in E2. rewrite V in E2. rewrite <- E, E2. f_equal. lia.
  - intros (w & [Hw E] & ->). unfold split_bytes, le8.
    change (2 ^ 64) with 18446744073709551616 in Hw.
    cbn [map split_from].
    change (2 ^ (8 * 0)) with 1. change (2 ^ (8 * 1)) with 256. change (2 ^ (8 * 2)) with 65536. change (2 ^ (8 * 3)) with 16777216.
    change (2 ^ (8 * 4)) with 4294967296. change (2 ^ (8 * 5)) with 1099511627776. change (2 ^ (8 * 6)) with 281474976710656.
    change (2 ^ (8 * 7)) with 72057594037927936. change (2 ^ 8) with 256.
    exists (w / 256). split; [lia|]. split; [change (2 ^ (8 * Z.of_nat 7)) with 72057594037927936; lia|].
    split; [rewrite <- E; f_equal; lia|].
    exists (w / 65536). split; [lia|]. split; [change (2 ^ (8 * Z.of_nat 6)) with 281474976710656; lia|].
    split; [unfold P; lia|].
    exists (w / 16777216). split; [lia|]. split; [change (2 ^ (8 * Z.of_nat 5)) with 1099511627776; lia|].
    split; [unfold P; lia|].
    exists (w / 4294967296). split; [lia|]. split; [change (2 ^ (8 * Z.of_nat 4)) with 4294967296; lia|].
    split; [unfold P; lia|].
    exists (w / 1099511627776). split; [lia|]. split; [change (2 ^ (8 * Z.of_nat 3)) with 16777216; lia|].
    split; [unfold P; lia|].
    exists (w / 281474976710656). split; [lia|]. split; [change (2 ^ (8 * Z.of_nat 2)) with 65536; lia|].
    split; [unfold P; lia|].
    exists (w / 72057594037927936). split; [lia|]. split; [change (2 ^ (8 * Z.of_nat 1)) with 256; lia|].
    split; [unfold P; lia|]. lia.
Qed.

Section Rec.
  Variable HR : list Z -> dig -> Prop.

  Lemma byte_wise_hash_spec xs h : Forall canon xs -> (byte_wise_hash HR xs h <-> WordsHash HR xs h).
  Proof.
    intros C. split.
    - intros (bss & F & Hh). assert (X : exists ws, Forall2 word_for xs ws /\ bss = map le8 ws).
      { clear -C F. induction F as [|x bs xs bss S F IH]; [exists []; split; constructor|].
        inversion C; subst. apply split_bytes_spec in S; [|assumption]. destruct S as (w & W & ->).
        destruct IH as (ws & F2 & ->); [assumption|]. exists (w :: ws). split; [constructor; assumption|reflexivity]. }
      destruct X as (ws & F2 & ->). exists ws. split; [exact F2|exact Hh].
    - intros (ws & F & Hh). exists (map le8 ws). split; [|exact Hh]. clear -C F.
      induction F as [|x w xs ws W F IH]; [constructor|]. inversion C; subst. constructor; [|apply IH; assumption].
      apply split_bytes_spec; [assumption|]. exists w. split; [assumption|reflexivity].
  Qed.
  Lemma delems_canon d : dig_ok d -> Forall canon (delems d).
  Proof. intros (A & B & C & D). repeat constructor; try apply A; try apply B; try apply C; apply D. Qed.
  Lemma hash_pair_vm l r h : dig_ok l -> dig_ok r -> (hash_pair HR true l r h <-> vm_pair_hash HR l r h).
  Proof. intros A B. apply byte_wise_hash_spec. apply List.Forall_app. split; apply delems_canon; assumption. Qed.

  Definition ojoin {A} (l r : option (btree A)) : option (btree A) :=
    match l, r with Some l, Some r => Some (BNode l r) | Some l, None => Some l | None, r => r end.
  Lemma oleaves_ojoin {A} (l r : option (btree A)) : oleaves (ojoin l r) = oleaves l ++ oleaves r.
  Proof. destruct l, r; cbn; rewrite ?app_nil_r; reflexivity. Qed.
  Lemma hof_root {A} (leaf : A -> dig -> Prop) tl tr lp l rp r x : dig_ok l -> dig_ok r ->
    ORoot leaf (pair_hash HR) tl lp l -> ORoot leaf (pair_hash HR) tr rp r -> hash_or_forward HR lp l rp r x ->
    ORoot leaf (pair_hash HR) (ojoin tl tr) (lp || rp) x.
  Proof.
    intros Ol Or Cl Cr (h & Hh & ->). destruct tl, tr; cbn in *; destruct Cl as [-> Cl], Cr as [-> Cr]; cbn.
    - split; [reflexivity|]. econstructor; eassumption.
    - subst r. split; [reflexivity|]. rewrite dadd_0_r by exact Ol. exact Cl.
    - subst l. split; [reflexivity|]. rewrite dadd_0_l by exact Or. exact Cr.
    - subst. split; [reflexivity|]. apply dadd_00.
  Qed.
End Rec.

(** ** interleavings *)
Lemma Interleave_nil_l {A} (b : list A) : Interleave [] b b.
Proof. induction b; constructor; assumption. Qed.
Lemma Interleave_nil_r {A} (a : list A) : Interleave a [] a.
Proof. induction a; constructor; assumption. Qed.
Lemma Interleave_app {A} (a b m a' b' m' : list A) : Interleave a b m -> Interleave a' b' m' -> Interleave (a ++ a') (b ++ b') (m ++ m').
Proof. induction 1; cbn; intros; [assumption|constructor; auto|constructor; auto]. Qed.
Lemma Interleave_perm {A} (a b m : list A) : Interleave a b m -> Permutation m (a ++ b).
Proof.
  induction 1 as [|x a b m _ IH|x a b m _ IH]; [constructor|cbn; constructor; exact IH|].
  rewrite IH. apply Permutation_middle.
Qed.
