(** merkleize computes the address-prefix tree (lemmas for C40). *)
From Coq Require Import Sorting.Sorted.
From Verif Require Import Word SdkModel SdkSpec.
Ltac dlia := Z.div_mod_to_equations; lia.

Lemma pow_pos k : 0 < 2 ^ Z.of_nat k.
Proof. apply Z.pow_pos_nonneg; [reflexivity|apply Nat2Z.is_nonneg]. Qed.

Section M.
  Variable H : list Z -> digest.
  Let two := two_to_one H.
  Notation leafs := (list (Z * digest)).

  Definition shl (s : Z) (l : leafs) : leafs := map (fun x => (Z.shiftr (fst x) s, snd x)) l.
  Fixpoint sweep (l : leafs) : leafs :=
    match l with
    | [] => []
    | a :: l' => match l' with
                 | [] => [a]
                 | b :: r => if fst a =? fst b then (fst a, two (snd a) (snd b)) :: sweep r
                             else a :: sweep l'
                 end
    end.
  Fixpoint minadj (m : Z) (l : leafs) : Z :=
    match l with
    | [] => m
    | a :: l' => match l' with
                 | [] => m
                 | b :: _ => minadj (Z.min m (height_diff (fst a) (fst b))) l'
                 end
    end.

  Lemma sweep_cons2 a b r : sweep (a :: b :: r) =
    if fst a =? fst b then (fst a, two (snd a) (snd b)) :: sweep r else a :: sweep (b :: r).
  Proof. reflexivity. Qed.
  Lemma minadj_cons2 m a b r :
    minadj m (a :: b :: r) = minadj (Z.min m (height_diff (fst a) (fst b))) (b :: r).
  Proof. reflexivity. Qed.
  Lemma sweep_head a l : exists d r, sweep (a :: l) = (fst a, d) :: r.
  Proof.
    destruct l as [|b r]; [destruct a; eauto|]. rewrite sweep_cons2. destruct (fst a =? fst b); eauto.
    destruct a; eauto.
  Qed.
  Lemma minadj_cons m a (b : Z * digest) (d : digest) r (X : leafs) : X = (fst b, d) :: r ->
    minadj m (a :: X) = minadj (Z.min m (height_diff (fst a) (fst b))) X.
  Proof. intros ->. reflexivity. Qed.

  Lemma step_loop_spec s : forall n items lft out nxt, (length items <= n)%nat ->
    step_loop H s lft items out nxt =
    (out ++ sweep (lft :: shl s items), minadj nxt (sweep (lft :: shl s items))).
  Proof.
    induction n as [|n IH]; intros items lft out nxt L.
    { destruct items; [reflexivity|cbn in L; lia]. }
    destruct items as [|right0 items]; [reflexivity|]. cbn [length] in L.
    cbn [step_loop shl map]. rewrite sweep_cons2. cbn [fst snd].
    destruct (fst lft =? Z.shiftr (fst right0) s) eqn:E.
    - destruct items as [|next0 items].
      + cbn [map sweep minadj]. reflexivity.
      + cbn [length] in L. rewrite IH by lia. cbn [map]. fold (shl s items).
        rewrite <- app_assoc. cbn [app]. f_equal.
        destruct (sweep_head (Z.shiftr (fst next0) s, snd next0) (shl s items)) as (d & r & Eq).
        cbn [fst snd]. symmetry. etransitivity; [eapply minadj_cons; exact Eq|]. reflexivity.
    - rewrite IH by lia. fold (shl s items). rewrite <- app_assoc. cbn [app]. f_equal.
      destruct (sweep_head (Z.shiftr (fst right0) s, snd right0) (shl s items)) as (d & r & Eq).
      symmetry. etransitivity; [eapply minadj_cons; exact Eq|]. reflexivity.
  Qed.

  Lemma step_spec checks L h : L <> [] -> 0 <= h < 64 ->
    merkleize_step H checks L h = Some (sweep (shl h L), minadj U32_MAX (sweep (shl h L))).
  Proof.
    intros N Hh. destruct L as [|a r]; [congruence|]. cbn [merkleize_step].
    replace (64 <=? h) with false by lia. cbn [andb]. rewrite Z.mod_small by lia.
    erewrite step_loop_spec by reflexivity. reflexivity.
  Qed.

  (** height_diff *)
  Lemma hd_le a b k : 0 <= a < 2 ^ 64 -> 0 <= b < 2 ^ 64 -> 0 <= k ->
    height_diff a b <= k <-> a / 2 ^ k = b / 2 ^ k.
  Proof.
    intros Ha Hb Hk. unfold height_diff, leading_zeros.
    assert (X0 : 0 <= Z.lxor a b) by (apply Z.lxor_nonneg; lia).
    assert (E : a / 2 ^ k = b / 2 ^ k <-> Z.shiftr (Z.lxor a b) k = 0).
    { rewrite Z.shiftr_lxor, Z.lxor_eq_0_iff, !Z.shiftr_div_pow2 by lia. reflexivity. }
    rewrite E. destruct (Z.lxor a b =? 0) eqn:Z0.
    - apply Z.eqb_eq in Z0. rewrite Z0, Z.shiftr_0_l. lia.
    - apply Z.eqb_neq in Z0. assert (P : 0 < Z.lxor a b) by lia.
      split; intros L.
      + apply Z.shiftr_eq_0; lia.
      + apply Z.shiftr_eq_0_iff in L. lia.
  Qed.
  Lemma hd_nonneg a b : 0 <= a < 2 ^ 64 -> 0 <= b < 2 ^ 64 -> 0 <= height_diff a b.
  Proof.
    intros Ha Hb. unfold height_diff, leading_zeros.
    assert (X0 : 0 <= Z.lxor a b) by (apply Z.lxor_nonneg; lia).
    destruct (Z.lxor a b =? 0); [lia|]. pose proof (Z.log2_nonneg (Z.lxor a b)). lia.
  Qed.

  Fixpoint AdjGe (h : Z) (l : leafs) : Prop :=
    match l with
    | [] => True
    | a :: l' => match l' with [] => True | b :: _ => h <= height_diff (fst a) (fst b) /\ AdjGe h l' end
    end.
  Definition Srt := StronglySorted (fun x y : Z * digest => fst x <= fst y).
  Definition Pre (n : nat) (p : Z) (l : leafs) := Forall (fun x => fst x / 2 ^ Z.of_nat n = p) l.
  Definition Rng (l : leafs) := Forall (fun x => 0 <= fst x < 2 ^ 64) l.

  Lemma minadj_le m l : minadj m l <= m.
  Proof.
    revert m. induction l as [|a l IH]; intros m; [reflexivity|]. destruct l as [|b r]; [reflexivity|].
    rewrite minadj_cons2. etransitivity; [apply IH|]. lia.
  Qed.
  Lemma minadj_adj m l : AdjGe (minadj m l) l.
  Proof.
    revert m. induction l as [|a l IH]; intros m; [exact I|]. destruct l as [|b r]; [exact I|].
    rewrite minadj_cons2. cbn [AdjGe]. split; [|apply IH].
    etransitivity; [apply minadj_le|]. lia.
  Qed.
  (** the minimum is attained (or is [m]) *)
  Lemma minadj_attained m l : minadj m l = m \/
    exists l1 a b l2, l = l1 ++ a :: b :: l2 /\ height_diff (fst a) (fst b) = minadj m l.
  Proof.
    revert m. induction l as [|a l IH]; intros m; [auto|]. destruct l as [|b r]; [auto|].
    rewrite minadj_cons2. destruct (IH (Z.min m (height_diff (fst a) (fst b)))) as [E | (l1 & x & y & l2 & E & D)].
    - rewrite E. destruct (Z.min_spec m (height_diff (fst a) (fst b))) as [[_ ->]|[_ ->]]; [auto|].
      right. exists [], a, b, r. auto.
    - right. exists (a :: l1), x, y, l2. split; [rewrite E; reflexivity|exact D].
  Qed.

  (** tree function *)
  Fixpoint rounds (n : nat) (l : list digest) : digest :=
    match l with
    | [] => default_id
    | [d] => d
    | _ => match n with O => default_id | S n' => rounds n' (pair_round two l) end
    end.
  Definition bucket (l : list digest) := rounds (length l) l.
  Lemma pair_round_len : forall n l, (length l <= n)%nat ->
    (length (pair_round two l) <= length l)%nat /\ ((2 <= length l)%nat -> (length (pair_round two l) < length l)%nat)
    /\ (l <> [] -> pair_round two l <> []).
  Proof.
    induction n as [|n IH]; intros l L.
    { destruct l; [cbn; split; [lia|split; [lia|auto]]|cbn in L; lia]. }
    destruct l as [|a [|b r]]; cbn [pair_round length]; try (split; [lia|split; [lia|congruence]]).
    cbn [length] in L. destruct (IH r ltac:(lia)) as (A & _). split; [lia|split; [lia|congruence]].
  Qed.
  Lemma rounds_fuel : forall n m l, (length l <= n)%nat -> (length l <= m)%nat -> rounds n l = rounds m l.
  Proof.
    induction n as [|n IH]; intros m l L1 L2.
    { destruct l; [destruct m; reflexivity|cbn in L1; lia]. }
    destruct l as [|a [|b r]]; [destruct m; reflexivity|destruct m; reflexivity|].
    destruct m as [|m]; [cbn in L2; lia|]. cbn [rounds].
    destruct (pair_round_len _ (a :: b :: r) (Nat.le_refl _)) as (_ & A & _).
    cbn [length] in *. apply IH; specialize (A ltac:(lia)); lia.
  Qed.
  Lemma bucket_round l : bucket (pair_round two l) = bucket l.
  Proof.
    unfold bucket. destruct l as [|a [|b r]]; [reflexivity|reflexivity|].
    destruct (pair_round_len _ (a :: b :: r) (Nat.le_refl _)) as (_ & A & _). specialize (A ltac:(cbn [length]; lia)).
    cbn [length] in A |- *. change (rounds (Datatypes.S (Datatypes.S (length r))) (a :: b :: r))
      with (rounds (Datatypes.S (length r)) (pair_round two (a :: b :: r))).
    apply rounds_fuel; lia.
  Qed.
  Lemma bucket_balanced : forall n l, (length l <= n)%nat -> l <> [] -> Balanced two l (bucket l).
  Proof.
    induction n as [|n IH]; intros l L N.
    { destruct l; [congruence|cbn in L; lia]. }
    destruct l as [|a [|b r]]; [congruence|constructor|]. rewrite <- bucket_round.
    apply BalRound. destruct (pair_round_len _ (a :: b :: r) (Nat.le_refl _)) as (_ & A & B).
    specialize (A ltac:(cbn [length]; lia)). apply IH; [cbn [length] in *; lia|apply B; congruence].
  Qed.

  Definition hib (m : nat) (x : Z * digest) : bool := Z.odd (fst x / 2 ^ Z.of_nat m).
  Fixpoint T (n : nat) (l : leafs) : digest :=
    match n with
    | O => bucket (map snd l)
    | S m =>
        let lo := List.filter (fun x => negb (hib m x)) l in
        let hi := List.filter (hib m) l in
        match lo, hi with
        | [], _ => T m hi
        | _, [] => T m lo
        | _, _ => two (T m lo) (T m hi)
        end
    end.
  Lemma T_S m l : T (S m) l =
        match List.filter (fun x => negb (hib m x)) l, List.filter (hib m) l with
        | [], _ => T m (List.filter (hib m) l)
        | _, [] => T m (List.filter (fun x => negb (hib m x)) l)
        | _, _ => two (T m (List.filter (fun x => negb (hib m x)) l)) (T m (List.filter (hib m) l))
        end.
  Proof. reflexivity. Qed.

  Lemma filter_all_true {A} (f : A -> bool) l : Forall (fun x => f x = true) l -> List.filter f l = l.
  Proof. induction 1; cbn; [auto|]. rewrite H0. congruence. Qed.
  Lemma filter_all_false {A} (f : A -> bool) l : Forall (fun x => f x = false) l -> List.filter f l = [].
  Proof. induction 1; cbn; [auto|]. rewrite H0. auto. Qed.

  Lemma T_nil n : T n [] = default_id.
  Proof. induction n; [reflexivity|]. rewrite T_S. cbn. auto. Qed.
  Lemma T_single n x : T n [x] = snd x.
  Proof.
    induction n; [reflexivity|]. rewrite T_S. cbn. destruct (hib n x); cbn; auto.
  Qed.
  Lemma T_lo m l : Forall (fun x => hib m x = false) l -> T (S m) l = T m l.
  Proof.
    intros F. rewrite T_S. rewrite (filter_all_false (hib m)) by auto.
    rewrite filter_all_true; [|revert F; apply Forall_impl; intros x ->; auto].
    destruct l; [rewrite !T_nil; auto|auto].
  Qed.
  Lemma T_hi m l : Forall (fun x => hib m x = true) l -> T (S m) l = T m l.
  Proof.
    intros F. rewrite T_S. rewrite (filter_all_true (hib m)) by auto.
    rewrite filter_all_false; [|revert F; apply Forall_impl; intros x ->; auto]. auto.
  Qed.
  Lemma T_split m l1 l2 : l1 <> [] -> l2 <> [] -> Forall (fun x => hib m x = false) l1 ->
    Forall (fun x => hib m x = true) l2 -> T (S m) (l1 ++ l2) = two (T m l1) (T m l2).
  Proof.
    intros N1 N2 F1 F2. rewrite T_S. rewrite !List.filter_app.
    rewrite (filter_all_false (hib m) l1), (filter_all_true (hib m) l2) by auto.
    rewrite filter_all_true, filter_all_false;
      [|revert F2; apply Forall_impl; intros x ->; auto|revert F1; apply Forall_impl; intros x ->; auto].
    rewrite app_nil_r. cbn [app]. destruct l1, l2; congruence.
  Qed.

  (** splitting a sorted list that agrees above bit m *)
  Lemma half m x p : x / 2 ^ Z.of_nat (S m) = p ->
    (x / 2 ^ Z.of_nat m = 2 * p \/ x / 2 ^ Z.of_nat m = 2 * p + 1).
  Proof.
    rewrite Nat2Z.inj_succ, Z.pow_succ_r by lia. rewrite (Z.mul_comm 2), <- Z.div_div by lia.
    intros. dlia.
  Qed.
  Lemma hib_lo m x p : fst x / 2 ^ Z.of_nat m = 2 * p -> hib m x = false.
  Proof. unfold hib. intros ->. rewrite Z.odd_mul. reflexivity. Qed.
  Lemma hib_hi m x p : fst x / 2 ^ Z.of_nat m = 2 * p + 1 -> hib m x = true.
  Proof. unfold hib. intros ->. rewrite Z.odd_add, Z.odd_mul. reflexivity. Qed.

  Lemma split_sorted m p l : Srt l -> Pre (S m) p l ->
    exists l1 l2, l = l1 ++ l2 /\ Pre m (2 * p) l1 /\ Pre m (2 * p + 1) l2.
  Proof.
    induction l as [|a l IH]; intros S F.
    { exists [], []. repeat split; constructor. }
    inversion S as [|? ? S' Fa]; subst. inversion F as [|? ? Ea F']; subst.
    destruct (half m (fst a) _ eq_refl) as [E|E].
    - destruct (IH S' F') as (l1 & l2 & -> & A & B). exists (a :: l1), l2. repeat split; auto.
      constructor; auto.
    - exists [], (a :: l). repeat split; [constructor|]. constructor; [auto|].
      apply List.Forall_forall. intros x I. rewrite List.Forall_forall in Fa, F'.
      specialize (Fa x I). specialize (F' x I). destruct (half _ _ _ F') as [E'|E']; auto.
      assert (fst a / 2 ^ Z.of_nat m <= fst x / 2 ^ Z.of_nat m) by (apply Z.div_le_mono; lia). lia.
  Qed.

  Lemma Srt_app l1 l2 : Srt (l1 ++ l2) -> Srt l1 /\ Srt l2.
  Proof.
    induction l1 as [|a l1 IH]; cbn [app]; intros S; [split; [constructor|auto]|].
    inversion S as [|? ? S' Fa]; subst. destruct (IH S') as (A & B). split; auto.
    apply Forall_app in Fa as (Fa & _). constructor; auto.
  Qed.
  Lemma AdjGe_app h l1 l2 : AdjGe h (l1 ++ l2) -> AdjGe h l1 /\ AdjGe h l2.
  Proof.
    induction l1 as [|a l1 IH]; cbn [app]; intros S; [split; [exact I|auto]|].
    destruct l1 as [|b l1]; cbn [app] in *.
    - split; [exact I|]. destruct l2; [exact I|]. destruct S; auto.
    - destruct S as (A & S). destruct (IH S) as (B & C). split; [split; auto|auto].
  Qed.

  Lemma sweep_addr x l : x ∈ map fst (sweep l) -> x ∈ map fst l.
  Proof.
    assert (G : forall n l, (length l <= n)%nat -> x ∈ map fst (sweep l) -> x ∈ map fst l).
    { induction n as [|n IH]; intros l0 L I.
      { destruct l0; [auto|cbn in L; lia]. }
      destruct l0 as [|a [|b r]]; [auto|auto|]. rewrite sweep_cons2 in I. cbn [length] in L.
      destruct (fst a =? fst b) eqn:E; cbn [map] in *; rewrite elem_of_cons in I |- *.
      - destruct I as [->|I]; [auto|]. right. apply elem_of_cons. right. apply IH; [lia|auto].
      - destruct I as [->|I]; [auto|]. right. apply IH in I; [auto|cbn [length]; lia]. }
    apply (G (length l)). lia.
  Qed.
  Lemma sweep_addr' x l : x ∈ map fst l -> x ∈ map fst (sweep l).
  Proof.
    assert (G : forall n l, (length l <= n)%nat -> x ∈ map fst l -> x ∈ map fst (sweep l)).
    { induction n as [|n IH]; intros l0 L I.
      { destruct l0; [auto|cbn in L; lia]. }
      destruct l0 as [|a [|b r]]; [auto|auto|]. rewrite sweep_cons2. cbn [length] in L.
      destruct (fst a =? fst b) eqn:E; cbn [map] in *; rewrite !elem_of_cons in I |- *; cbn [fst].
      - destruct I as [->|I]; [auto|]. apply elem_of_cons in I as [->|I]; [left; lia|]. right. apply IH; [lia|auto].
      - destruct I as [->|I]; [auto|]. right. apply IH; [cbn [length]; lia|exact I]. }
    apply (G (length l)). lia.
  Qed.
  Lemma sweep_Forall (P : Z -> Prop) l : Forall (fun x => P (fst x)) l -> Forall (fun x => P (fst x)) (sweep l).
  Proof.
    intros F. assert (G : Forall P (map fst (sweep l))).
    { apply List.Forall_forall. intros x I. apply elem_of_list_In in I. apply sweep_addr in I.
      apply elem_of_list_In, in_map_iff in I as (y & <- & I). rewrite List.Forall_forall in F. auto. }
    exact (proj1 (List.Forall_map fst P (sweep l)) G).
  Qed.
  Lemma sweep_nonempty l : l <> [] -> sweep l <> [].
  Proof. destruct l as [|a l]; [congruence|]. intros _. destruct (sweep_head a l) as (d & r & ->). congruence. Qed.
  Lemma sweep_Srt l : Srt l -> Srt (sweep l).
  Proof.
    assert (G : forall n l, (length l <= n)%nat -> Srt l -> Srt (sweep l)).
    { induction n as [|n IH]; intros l0 L S.
      { destruct l0; [auto|cbn in L; lia]. }
      destruct l0 as [|a [|b r]]; [auto|auto|]. rewrite sweep_cons2. cbn [length] in L.
      inversion S as [|? ? S' Fa]; subst. inversion S' as [|? ? S'' Fb]; subst.
      destruct (fst a =? fst b) eqn:E.
      - constructor; [apply IH; [lia|auto]|]. cbn [fst]. apply (sweep_Forall (fun x => fst a <= x)).
        inversion Fa; auto.
      - constructor; [apply IH; [cbn [length]; lia|auto]|].
        apply (sweep_Forall (fun x => fst a <= x)). auto. }
    apply (G (length l)). lia.
  Qed.
  Lemma sweep_app l1 l2 : l2 <> [] ->
    (forall x, x ∈ l1 -> forall y, y ∈ l2 -> fst x <> fst y) -> sweep (l1 ++ l2) = sweep l1 ++ sweep l2.
  Proof.
    intros N2. assert (G : forall n l1, (length l1 <= n)%nat ->
      (forall x, x ∈ l1 -> forall y, y ∈ l2 -> fst x <> fst y) -> sweep (l1 ++ l2) = sweep l1 ++ sweep l2).
    { induction n as [|n IH]; intros l0 L D.
      { destruct l0; [auto|cbn in L; lia]. }
      destruct l0 as [|a [|b r]]; [reflexivity| |].
      - cbn [app]. destruct l2 as [|c l2]; [congruence|]. rewrite sweep_cons2.
        destruct (fst a =? fst c) eqn:E; [|reflexivity].
        exfalso. eapply (D a ltac:(left) c ltac:(left)). lia.
      - cbn [app length] in *. rewrite !sweep_cons2.
        destruct (fst a =? fst b) eqn:E; cbn [app]; f_equal.
        + apply IH; [lia|]. intros x I. apply D. right. right. auto.
        + apply (IH (b :: r)); [cbn [length]; lia|]. intros x I. apply D. right. auto. }
    apply (G (length l1)). lia.
  Qed.

  Lemma shl_app s l1 l2 : shl s (l1 ++ l2) = shl s l1 ++ shl s l2.
  Proof. apply map_app. Qed.
  Lemma pow_nz k : 2 ^ Z.of_nat k <> 0. Proof. apply Z.pow_nonzero; lia. Qed.
  Lemma shift_div x h n : (h <= n)%nat ->
    Z.shiftr x (Z.of_nat h) / 2 ^ Z.of_nat (n - h) = x / 2 ^ Z.of_nat n.
  Proof.
    intros L. rewrite Z.shiftr_div_pow2 by lia. rewrite Z.div_div by (try apply pow_nz; lia).
    rewrite <- Z.pow_add_r by lia. do 2 f_equal. lia.
  Qed.
  Lemma shl_Pre h n p l : (h <= n)%nat -> Pre n p l -> Pre (n - h) p (shl (Z.of_nat h) l).
  Proof.
    intros L F. unfold Pre, shl. apply List.Forall_map. revert F. apply Forall_impl. intros x E.
    cbn [fst]. rewrite shift_div by auto. auto.
  Qed.
  Lemma shl_Srt s l : 0 <= s -> Srt l -> Srt (shl s l).
  Proof.
    intros Hs. induction 1 as [|a l S IH F]; cbn [shl map]; constructor; auto.
    apply List.Forall_map. revert F. apply Forall_impl. intros x E. cbn [fst].
    rewrite !Z.shiftr_div_pow2 by lia. apply Z.div_le_mono; lia.
  Qed.
  Lemma shl_Rng s l : 0 <= s -> Rng l -> Rng (shl s l).
  Proof.
    intros Hs F. apply List.Forall_map. revert F. apply Forall_impl. intros x E. cbn [fst].
    rewrite Z.shiftr_div_pow2 by lia. split; [apply Z.div_pos; lia|].
    eapply Z.le_lt_trans; [|apply E]. apply Z.div_le_upper_bound; [lia|].
    assert (0 < 2 ^ s) by lia. nia.
  Qed.
  Lemma Pre_distinct n p l1 l2 : Pre n (2 * p) l1 -> Pre n (2 * p + 1) l2 ->
    forall x, x ∈ l1 -> forall y, y ∈ l2 -> fst x <> fst y.
  Proof.
    unfold Pre. rewrite !List.Forall_forall. intros F1 F2 x I y J E.
    apply elem_of_list_In in I, J. specialize (F1 x I). specialize (F2 y J). rewrite E in F1. lia.
  Qed.
  Lemma Pre_hib_lo n p l : Pre n (2 * p) l -> Forall (fun x => hib n x = false) l.
  Proof. unfold Pre. apply Forall_impl. intros x. apply hib_lo. Qed.
  Lemma Pre_hib_hi n p l : Pre n (2 * p + 1) l -> Forall (fun x => hib n x = true) l.
  Proof. unfold Pre. apply Forall_impl. intros x. apply hib_hi. Qed.

  Lemma sweep_same l : forall p, Forall (fun x => fst x = p) l -> map snd (sweep l) = pair_round two (map snd l).
  Proof.
    assert (G : forall n l p, (length l <= n)%nat -> Forall (fun x => fst x = p) l ->
       map snd (sweep l) = pair_round two (map snd l)).
    { induction n as [|n IH]; intros l0 p L F.
      { destruct l0; [auto|cbn in L; lia]. }
      destruct l0 as [|a [|b r]]; [reflexivity|reflexivity|]. rewrite sweep_cons2.
      inversion F as [|? ? Ea F']; subst. inversion F' as [|? ? Eb F'']; subst.
      replace (fst a =? fst b) with true by lia. cbn [map pair_round snd]. f_equal.
      cbn [length] in L. eapply IH; [lia|eauto]. }
    intros p. apply (G (length l)). lia.
  Qed.

  Lemma T_step h : forall k n p L, (n = h + k)%nat -> Pre n p L -> Srt L -> Rng L -> AdjGe (Z.of_nat h) L ->
    T n L = T k (sweep (shl (Z.of_nat h) L)).
  Proof.
    induction k as [|k IH]; intros n p L -> F S R A.
    - rewrite Nat.add_0_r in *. destruct h as [|m].
      + (* h = 0 : one address *)
        cbn [T]. change (Z.of_nat 0) with 0 in *.
        replace (shl 0 L) with L.
        2:{ unfold shl. symmetry. etransitivity; [|apply map_id]. apply map_ext. intros [x d]. cbn. rewrite Z.shiftr_0_r. auto. }
        rewrite (sweep_same L p). 2:{ unfold Pre in F. revert F. apply Forall_impl. intros x E. cbn in E. rewrite Z.div_1_r in E. auto. }
        symmetry. apply bucket_round.
      + destruct L as [|a [|b [|c r]]].
        * rewrite !T_nil. reflexivity.
        * rewrite T_single. reflexivity.
        * destruct A as (A & _). inversion F as [|? ? Ea F']; subst. inversion F' as [|? ? Eb _]; subst.
          inversion R as [|? ? Ra R']; subst. inversion R' as [|? ? Rb _]; subst.
          assert (NE : fst a / 2 ^ Z.of_nat m <> fst b / 2 ^ Z.of_nat m).
          { intros E. apply hd_le in E; lia. }
          assert (LE : fst a / 2 ^ Z.of_nat m <= fst b / 2 ^ Z.of_nat m).
          { apply Z.div_le_mono; [apply pow_pos|]. inversion S as [|? ? _ Fa]; subst. inversion Fa; auto. }
          destruct (half m (fst a) _ eq_refl) as [Ha|Ha], (half m (fst b) _ Eb) as [Hb|Hb]; try lia.
          change (a :: [b]) with ([a] ++ [b]).
          rewrite T_split; [|congruence|congruence|constructor; [|constructor]; eapply hib_lo; eauto
                           |constructor; [|constructor]; eapply hib_hi; eauto].
          rewrite !T_single. cbn [app shl map]. rewrite sweep_cons2. cbn [fst snd].
          rewrite !Z.shiftr_div_pow2 by lia. rewrite Eb, Z.eqb_refl. reflexivity.
        * exfalso. destruct A as (A & B & _).
          inversion F as [|? ? Ea F']; subst. inversion F' as [|? ? Eb F'']; subst. inversion F'' as [|? ? Ec _]; subst.
          inversion R as [|? ? Ra R']; subst. inversion R' as [|? ? Rb R'']; subst. inversion R'' as [|? ? Rc _]; subst.
          assert (NE : fst a / 2 ^ Z.of_nat m <> fst b / 2 ^ Z.of_nat m).
          { intros E. apply hd_le in E; lia. }
          assert (NE' : fst b / 2 ^ Z.of_nat m <> fst c / 2 ^ Z.of_nat m).
          { intros E. apply hd_le in E; lia. }
          inversion S as [|? ? S' Fa]; subst. inversion Fa; subst. inversion S' as [|? ? S'' Fb]; subst. inversion Fb; subst.
          assert (LE : fst a / 2 ^ Z.of_nat m <= fst b / 2 ^ Z.of_nat m) by (apply Z.div_le_mono; lia).
          assert (LE' : fst b / 2 ^ Z.of_nat m <= fst c / 2 ^ Z.of_nat m) by (apply Z.div_le_mono; lia).
          pose proof (half m (fst a) _ eq_refl). pose proof (half m (fst b) _ Eb). pose proof (half m (fst c) _ Ec). lia.
    - rewrite <- plus_n_Sm in *.
      destruct (split_sorted _ _ _ S F) as (l1 & l2 & -> & F1 & F2).
      apply Srt_app in S as (S1 & S2). apply AdjGe_app in A as (A1 & A2).
      unfold Rng in R. apply Forall_app in R as (R1 & R2).
      assert (G1 : Pre k (2 * p) (sweep (shl (Z.of_nat h) l1))).
      { replace k with (h + k - h)%nat by lia. apply (sweep_Forall (fun x => x / 2 ^ Z.of_nat (h + k - h) = 2 * p)).
        apply shl_Pre; [lia|auto]. }
      assert (G2 : Pre k (2 * p + 1) (sweep (shl (Z.of_nat h) l2))).
      { replace k with (h + k - h)%nat by lia. apply (sweep_Forall (fun x => x / 2 ^ Z.of_nat (h + k - h) = 2 * p + 1)).
        apply shl_Pre; [lia|auto]. }
      destruct (decide (l1 = [])) as [->|N1]; [|destruct (decide (l2 = [])) as [->|N2]].
      + cbn [app]. rewrite T_hi by (eapply Pre_hib_hi; eauto). rewrite T_hi by (eapply Pre_hib_hi; eauto).
        eapply IH; eauto.
      + rewrite !app_nil_r. rewrite T_lo by (eapply Pre_hib_lo; eauto). rewrite T_lo by (eapply Pre_hib_lo; eauto).
        eapply IH; eauto.
      + rewrite T_split; [|auto|auto|eapply Pre_hib_lo; eauto|eapply Pre_hib_hi; eauto].
        rewrite shl_app. rewrite sweep_app; [|destruct l2; cbn; congruence|].
        2:{ apply (Pre_distinct k p); replace k with (h + k - h)%nat by lia; apply shl_Pre; auto; lia. }
        rewrite T_split; [|apply sweep_nonempty; destruct l1; cbn; congruence
                          |apply sweep_nonempty; destruct l2; cbn; congruence
                          |eapply Pre_hib_lo; eauto|eapply Pre_hib_hi; eauto].
        rewrite (IH (h + k)%nat (2 * p) l1), (IH (h + k)%nat (2 * p + 1) l2); auto.
  Qed.

  Lemma T_prefix_root : forall n p L, L <> [] -> Pre n p L -> Srt L -> PrefixRoot two L (T n L).
  Proof.
    induction n as [|n IH]; intros p L N F S.
    - cbn [T]. apply (PRBucket two L p); [auto| |eapply bucket_balanced; [reflexivity|destruct L; cbn; congruence]].
      revert F. apply Forall_impl. intros x E. cbn in E. rewrite Z.div_1_r in E. auto.
    - destruct (split_sorted _ _ _ S F) as (l1 & l2 & -> & F1 & F2). apply Srt_app in S as (S1 & S2).
      destruct (decide (l1 = [])) as [->|N1]; [|destruct (decide (l2 = [])) as [->|N2]].
      + cbn [app] in *. rewrite T_hi by (eapply Pre_hib_hi; eauto). eauto.
      + rewrite app_nil_r in *. rewrite T_lo by (eapply Pre_hib_lo; eauto). eauto.
      + rewrite T_split; [|auto|auto|eapply Pre_hib_lo; eauto|eapply Pre_hib_hi; eauto].
        apply (PRSplit two l1 l2 (Z.of_nat n) p); eauto. lia.
  Qed.

  (** the loop *)
  Lemma sweep_len l : (length (sweep l) <= length l)%nat.
  Proof.
    assert (G : forall n l, (length l <= n)%nat -> (length (sweep l) <= length l)%nat).
    { induction n as [|n IH]; intros l0 L.
      { destruct l0; [auto|cbn in L; lia]. }
      destruct l0 as [|a [|b r]]; [auto|auto|]. rewrite sweep_cons2. cbn [length] in L.
      destruct (fst a =? fst b); cbn [length].
      - specialize (IH r ltac:(lia)). lia.
      - specialize (IH (b :: r) ltac:(cbn [length]; lia)). cbn [length] in IH. lia. }
    eapply G. reflexivity.
  Qed.
  Lemma sweep_len_lt l1 a b l2 : fst a = fst b -> (length (sweep (l1 ++ a :: b :: l2)) < length (l1 ++ a :: b :: l2))%nat.
  Proof.
    intros E. assert (G : forall n l1, (length l1 <= n)%nat ->
      (length (sweep (l1 ++ a :: b :: l2)) < length (l1 ++ a :: b :: l2))%nat).
    { induction n as [|n IH]; intros l0 L.
      - destruct l0; [|cbn in L; lia]. cbn [app]. rewrite sweep_cons2. replace (fst a =? fst b) with true by lia.
        cbn [length]. pose proof (sweep_len l2). lia.
      - destruct l0 as [|c [|d r]].
        + cbn [app]. rewrite sweep_cons2. replace (fst a =? fst b) with true by lia.
          cbn [length]. pose proof (sweep_len l2). lia.
        + cbn [app]. rewrite sweep_cons2. destruct (fst c =? fst a).
          * cbn [length]. pose proof (sweep_len (b :: l2)). cbn [length] in *. lia.
          * pose proof (IH [] ltac:(cbn; lia)). cbn [app length] in *. lia.
        + cbn [app]. rewrite sweep_cons2. cbn [length] in L. destruct (fst c =? fst d).
          * pose proof (IH r ltac:(lia)). cbn [length] in *. lia.
          * pose proof (IH (d :: r) ltac:(cbn [length]; lia)). cbn [app length] in *. lia. }
    eapply G. reflexivity.
  Qed.

  Lemma shl0 L : shl 0 L = L.
  Proof.
    unfold shl. etransitivity; [|apply map_id]. apply map_ext. intros [x d]. cbn. rewrite Z.shiftr_0_r. auto.
  Qed.
  Lemma hd_pre n p a b L1 L2 : (n <= 64)%nat -> Rng (L1 ++ a :: b :: L2) -> Pre n p (L1 ++ a :: b :: L2) ->
    0 <= height_diff (fst a) (fst b) <= Z.of_nat n.
  Proof.
    intros Ln R F. unfold Rng, Pre in *. apply Forall_app in R as (_ & R). apply Forall_app in F as (_ & F).
    inversion F as [|? ? Ea F']; subst. inversion F' as [|? ? Eb F'']; subst.
    inversion R as [|? ? Ra R']; subst. inversion R' as [|? ? Rb _]; subst.
    split; [apply hd_nonneg; auto|]. apply hd_le; auto; lia.
  Qed.

  Lemma AdjGe_in h l1 a b l2 : AdjGe h (l1 ++ a :: b :: l2) -> h <= height_diff (fst a) (fst b).
  Proof. intros A. apply AdjGe_app in A as (_ & A & _). auto. Qed.

  (** if all neighbours differ at bit 63 there are at most two elements *)
  Lemma adj64 L : Rng L -> Srt L -> AdjGe 64 L -> (2 <= length L)%nat -> TwoHalves L.
  Proof.
    intros R S A Len. destruct L as [|a [|b r]]; [cbn in Len; lia|cbn in Len; lia|].
    destruct A as (A & A').
    inversion R as [|? ? Ra R']; subst. inversion R' as [|? ? Rb R'']; subst.
    inversion S as [|? ? S' Fa]; subst. inversion Fa as [|? ? Lab _]; subst.
    assert (D : fst a / 2 ^ 63 <> fst b / 2 ^ 63) by (intros E; apply hd_le in E; lia).
    destruct r as [|c r].
    - exists (fst a), (fst b). split; [clear -D Lab Ra Rb; dlia|]. split; [left|]. split; [right; left|].
      intros x I. apply elem_of_cons in I as [->|I]; [auto|]. apply elem_of_cons in I as [->|I]; [auto|].
      apply elem_of_nil in I. tauto.
    - exfalso. destruct A' as (A' & _). inversion R'' as [|? ? Rc _]; subst. inversion S' as [|? ? _ Fb]; subst.
      inversion Fb as [|? ? Lbc _]; subst.
      assert (D' : fst b / 2 ^ 63 <> fst c / 2 ^ 63) by (intros E; apply hd_le in E; lia). clear -D D' Lab Lbc Ra Rb Rc; dlia.
  Qed.
  Lemma TwoHalves_sweep L : TwoHalves (sweep L) -> TwoHalves L.
  Proof.
    intros (lo & hi & B & I & J & F). exists lo, hi. split; [auto|].
    split; [apply sweep_addr; auto|]. split; [apply sweep_addr; auto|]. intros x Ix.
    assert (K : fst x ∈ map fst (sweep L)).
    { apply sweep_addr'. apply elem_of_list_In, in_map, elem_of_list_In. auto. }
    apply elem_of_list_In, in_map_iff in K as (y & <- & K). apply F, elem_of_list_In. auto.
  Qed.

  Lemma loop_ok checks : forall fuel L n p, (length L <= fuel)%nat -> L <> [] -> (n <= 64)%nat ->
    Pre n p L -> Srt L -> Rng L -> (n = 64%nat -> ~ TwoHalves L) ->
    merkle_loop H checks fuel L (minadj U32_MAX L) = Done (T n L).
  Proof.
    induction fuel as [|fuel IH]; intros L n p Lf N Ln F S R NT.
    { destruct L; [congruence|cbn in Lf; lia]. }
    destruct L as [|a [|b r]]; [congruence|cbn [merkle_loop]; rewrite T_single; auto|].
    set (L := a :: b :: r) in *. set (h := minadj U32_MAX L).
    assert (Hh : 0 <= h <= Z.of_nat n /\ AdjGe h L /\
      exists l1 x y l2, L = l1 ++ x :: y :: l2 /\ height_diff (fst x) (fst y) = h).
    { assert (A : AdjGe h L) by apply minadj_adj.
      destruct (minadj_attained U32_MAX L) as [E|(l1 & x & y & l2 & E & D)].
      - exfalso. fold h in E. assert (X : h <= height_diff (fst a) (fst b)) by (apply (AdjGe_in h [] a b r); auto).
        assert (0 <= height_diff (fst a) (fst b) <= Z.of_nat n) by (apply (hd_pre n p a b [] r); auto).
        unfold U32_MAX in *. lia.
      - split; [|split; [auto|exists l1, x, y, l2; auto]]. unfold h. rewrite <- D.
        apply (hd_pre n p x y l1 l2); auto; rewrite <- E; auto. }
    destruct Hh as (Hh & A & l1 & x & y & l2 & EL & D).
    assert (H64 : h < 64).
    { destruct (Z.lt_ge_cases h 64) as [?|G]; [auto|]. exfalso. assert (h = 64) by lia. apply NT; [lia|].
      apply adj64; auto; [|cbn; lia]. rewrite <- H0. auto. }
    assert (Ex : h = Z.of_nat (Z.to_nat h)) by lia. set (hn := Z.to_nat h) in *.
    change (merkle_loop H checks (Datatypes.S fuel) L h) with
      (match merkleize_step H checks L h with
       | None => Panicked | Some (hs', h') => merkle_loop H checks fuel hs' h' end).
    rewrite step_spec by (try lia; congruence).
    rewrite (T_step hn (n - hn) n p L); auto; [|lia|rewrite <- Ex; auto].
    rewrite <- Ex.
    assert (Sx : Srt (shl h L)) by (apply shl_Srt; [lia|auto]).
    assert (Rx : Rng (shl h L)) by (apply shl_Rng; [lia|auto]).
    apply (IH _ _ p).
    + assert (LL : (length (sweep (shl h L)) < length L)%nat); [|lia].
      rewrite EL. rewrite shl_app. cbn [shl map]. fold (shl h l2).
      match goal with |- (length (sweep (?A ++ ?B :: ?C :: ?E)) < _)%nat =>
        eassert (QQ : _) by (exact (sweep_len_lt A B C E)) end.
      cbn [fst] in QQ. rewrite !app_length in *. unfold shl in *. cbn [length] in *. rewrite !map_length in *. apply QQ.
      rewrite !Z.shiftr_div_pow2 by lia.
      assert (Rxy : Rng (x :: y :: l2)). { unfold Rng in *. rewrite EL in R. apply Forall_app in R as (_ & R). auto. }
      inversion Rxy as [|? ? R1 R']; subst. inversion R' as [|? ? R2 _]; subst.
      apply hd_le; lia.
    + apply sweep_nonempty. unfold L, shl. cbn. congruence.
    + lia.
    + apply (sweep_Forall (fun z => z / 2 ^ Z.of_nat (n - hn) = p)). rewrite Ex. apply shl_Pre; [lia|auto].
    + apply sweep_Srt; auto.
    + apply (sweep_Forall (fun z => 0 <= z < 2 ^ 64)); auto.
    + intros E64 TH. assert (h = 0) by lia. rewrite H0 in TH. rewrite shl0 in TH.
      apply TwoHalves_sweep in TH. apply NT; [lia|auto].
  Qed.

  Lemma SortedLeaves_Srt l : SortedLeaves l -> Srt l.
  Proof.
    induction l as [|a l IH]; intros S; constructor.
    - apply IH. intros i j x y L E1 E2. apply (S (Datatypes.S i) (Datatypes.S j)); [lia|auto|auto].
    - apply List.Forall_forall. intros x I. apply elem_of_list_In, elem_of_list_lookup in I as (i & E).
      apply (S 0%nat (Datatypes.S i)); [lia|auto|auto].
  Qed.

  Lemma merkleize_ok checks fuel l : SortedLeaves l -> LeafRange l -> ~ TwoHalves l -> l <> [] ->
    (length l < fuel)%nat -> merkleize H checks fuel l = Done (T 64 l).
  Proof.
    intros S R NT N Lf. apply SortedLeaves_Srt in S.
    assert (R' : Rng l). { revert R. apply Forall_impl. unfold u64. intros x E. lia. }
    assert (F : Pre 64 0 l). { revert R. apply Forall_impl. unfold u64. intros x E. apply Z.div_small. lia. }
    unfold merkleize. destruct fuel as [|fuel]; [lia|].
    destruct l as [|a [|b r]]; [congruence|cbn [merkle_loop]; rewrite T_single; auto|].
    set (L := a :: b :: r) in *.
    change (merkle_loop H checks (Datatypes.S fuel) L 0) with
      (match merkleize_step H checks L 0 with
       | None => Panicked | Some (hs', h') => merkle_loop H checks fuel hs' h' end).
    rewrite step_spec by (try lia; congruence). rewrite shl0.
    rewrite (T_step 0 64 64 0 L); auto.
    2:{ assert (G : forall l, Rng l -> AdjGe 0 l).
        { clear. induction l as [|a l IH]; intros R; [exact I|]. destruct l as [|b r]; [exact I|].
          inversion R as [|? ? Ra R']; subst. inversion R' as [|? ? Rb _]; subst.
          split; [apply hd_nonneg; auto|auto]. }
        apply G; auto. }
    change (Z.of_nat 0) with 0. rewrite shl0.
    apply (loop_ok checks fuel _ 64 0); auto.
    + pose proof (sweep_len L). lia.
    + apply sweep_nonempty. congruence.
    + apply (sweep_Forall (fun z => z / 2 ^ Z.of_nat 64 = 0)). auto.
    + apply sweep_Srt; auto.
    + apply (sweep_Forall (fun z => 0 <= z < 2 ^ 64)); auto.
    + intros _ TH. apply NT, TwoHalves_sweep; auto.
  Qed.

  Lemma merkleize_prefix_root checks fuel l : SortedLeaves l -> LeafRange l -> ~ TwoHalves l ->
    (length l < fuel)%nat -> exists d, merkleize H checks fuel l = Done d /\ PrefixRoot two l d.
  Proof.
    intros S R NT Lf. destruct (decide (l = [])) as [->|N].
    - exists default_id. split; [destruct fuel; reflexivity|constructor].
    - exists (T 64 l). split; [apply merkleize_ok; auto|].
      apply (T_prefix_root 64 0); [auto| |apply SortedLeaves_Srt; auto].
      revert R. apply Forall_impl. unfold u64. intros x E. apply Z.div_small. lia.
  Qed.

  (** the specification determines the root *)
  Lemma balanced_bucket l d : Balanced two l d -> bucket l = d.
  Proof. induction 1 as [d|a b l d _ IH]; [reflexivity|]. rewrite <- bucket_round. auto. Qed.
  Lemma T_same n a l : Forall (fun x => fst x = a) l -> T n l = bucket (map snd l).
  Proof.
    intros F. induction n as [|n IH]; [reflexivity|].
    destruct (hib n (a, [])) eqn:E.
    - rewrite T_hi; auto. revert F. apply Forall_impl. intros x <-. exact E.
    - rewrite T_lo; auto. revert F. apply Forall_impl. intros x <-. exact E.
  Qed.
  Lemma T_descend n b q l : (b <= n)%nat -> Pre b q l -> T n l = T b l.
  Proof.
    intros L F. induction n as [|n IH].
    - replace b with 0%nat by lia. auto.
    - destruct (decide (b = Datatypes.S n)) as [->|N]; [auto|].
      assert (G : Forall (fun x => hib n x = Z.odd (q / 2 ^ Z.of_nat (n - b))) l).
      { revert F. apply Forall_impl. intros x <-. unfold hib. f_equal.
        rewrite Z.div_div by (try apply pow_nz; pose proof (pow_pos (n - b)); lia).
        rewrite <- Z.pow_add_r by lia. do 2 f_equal. lia. }
      destruct (Z.odd (q / 2 ^ Z.of_nat (n - b))); [rewrite T_hi by auto|rewrite T_lo by auto]; apply IH; lia.
  Qed.
  Lemma T_unique l d : PrefixRoot two l d -> forall n p, Pre n p l -> T n l = d.
  Proof.
    induction 1 as [|l a d N F B|l1 l2 b q d1 d2 N1 N2 Hb F1 F2 _ IH1 _ IH2]; intros n p P.
    - apply T_nil.
    - rewrite (T_same n a) by auto. apply balanced_bucket; auto.
    - assert (Eb : b = Z.of_nat (Z.to_nat b)) by lia. set (m := Z.to_nat b) in *. clearbody m. subst b.
      unfold Pre in P. apply Forall_app in P as (P1 & P2).
      assert (G1 : Pre (S m) q l1).
      { revert F1. apply Forall_impl. intros x E. rewrite Nat2Z.inj_succ, Z.pow_succ_r, (Z.mul_comm 2), <- Z.div_div;
        try lia; try apply pow_nz. rewrite E. rewrite Z.mul_comm. apply Z.div_mul. lia. }
      assert (G2 : Pre (S m) q l2).
      { revert F2. apply Forall_impl. intros x E. rewrite Nat2Z.inj_succ, Z.pow_succ_r, (Z.mul_comm 2), <- Z.div_div;
        try lia; try apply pow_nz. rewrite E. dlia. }
      assert (L : (m < n)%nat).
      { destruct (Nat.lt_ge_cases m n) as [?|G]; [auto|]. exfalso.
        destruct l1 as [|x l1]; [congruence|]. destruct l2 as [|y l2]; [congruence|].
        inversion F1 as [|? ? Ex _]; subst. inversion F2 as [|? ? Ey _]; subst.
        inversion P1 as [|? ? Px _]; subst. inversion P2 as [|? ? Py _]; subst.
        rewrite <- (Nat.sub_add n m), Nat2Z.inj_add, Z.pow_add_r in Ex, Ey by lia.
        rewrite (Z.mul_comm (2 ^ Z.of_nat (m - n))), <- Z.div_div in Ex, Ey
          by (try apply pow_nz; pose proof (pow_pos (m - n)); lia).
        rewrite Py in Ey. lia. }
      rewrite (T_descend n (S m) q) by (auto; apply Forall_app; split; auto).
      rewrite T_split; [|auto|auto|eapply Pre_hib_lo; eauto|eapply Pre_hib_hi; eauto].
      f_equal; [eapply IH1|eapply IH2]; eauto.
  Qed.
  Lemma prefix_root_unique l d1 d2 : LeafRange l -> PrefixRoot two l d1 -> PrefixRoot two l d2 -> d1 = d2.
  Proof.
    intros R P1 P2. assert (F : Pre 64 0 l).
    { revert R. apply Forall_impl. unfold u64. intros x E. apply Z.div_small. lia. }
    rewrite <- (T_unique _ _ P1 _ _ F). apply (T_unique _ _ P2 _ _ F).
  Qed.

  (** two leaves whose addresses differ in the top bit *)
  Lemma two_halves_panics fuel lo hi d1 d2 : 0 <= lo < 2 ^ 63 -> 2 ^ 63 <= hi < 2 ^ 64 ->
    merkleize H true (S (S fuel)) [(lo, d1); (hi, d2)] = Panicked /\
    merkleize H false fuel [(lo, d1); (hi, d2)] = OutOfFuel.
  Proof.
    intros Hlo Hhi.
    assert (Hd : height_diff lo hi = 64).
    { assert (A : height_diff lo hi <= 64) by (apply hd_le; [lia|lia|lia|]; rewrite !Z.div_small by lia; auto).
      assert (B : ~ height_diff lo hi <= 63).
      { intros C. apply hd_le in C; [|lia|lia|lia]. rewrite Z.div_small in C by lia. dlia. }
      lia. }
    assert (St : forall checks h, h mod 64 = 0 -> (64 <=? h) && checks = false ->
      merkleize_step H checks [(lo, d1); (hi, d2)] h = Some ([(lo, d1); (hi, d2)], 64)).
    { intros checks h E0 E1. cbn [merkleize_step]. rewrite E1, E0. cbn [fst snd step_loop app].
      rewrite !Z.shiftr_0_r. replace (lo =? hi) with false by lia. rewrite Hd. reflexivity. }
    split.
    - unfold merkleize. cbn [merkle_loop]. rewrite St by auto. reflexivity.
    - unfold merkleize. enough (G : forall h, h = 0 \/ h = 64 -> merkle_loop H false fuel [(lo, d1); (hi, d2)] h = OutOfFuel) by auto.
      induction fuel as [|fuel IH]; intros h Hh; [reflexivity|]. cbn [merkle_loop].
      rewrite St; [auto|destruct Hh as [->| ->]; reflexivity|apply andb_false_r].
  Qed.
End M.
