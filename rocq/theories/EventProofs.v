(** Canonical order of events, temporal hints, the in-VM event tape (lemmas for C41-C43). *)
From Coq Require Import Sorting.Sorted Sorting.Permutation.
From stdpp Require Import sorting.
From Verif Require Import Word SdkModel SdkSpec.

(** the derived orders *)
Lemma lex_refl a : lex a a = Eq.
Proof. induction a; cbn; [auto|]. rewrite Z.compare_refl. auto. Qed.
Lemma lex_eq : forall a b, lex a b = Eq -> a = b.
Proof.
  induction a as [|x a IH]; intros [|y b]; cbn; try congruence.
  destruct (Z.compare_spec x y); try congruence. intros E. rewrite H, (IH b); auto.
Qed.
Lemma lex_anti : forall a b, lex b a = CompOpp (lex a b).
Proof.
  induction a as [|x a IH]; intros [|y b]; cbn; auto. rewrite Z.compare_antisym.
  destruct (Z.compare x y); cbn; auto.
Qed.
Lemma lex_trans c : forall x y z, lex x y = c -> lex y z = c -> lex x z = c.
Proof.
  intros x y z. revert x z. induction y as [|b y IH]; intros [|a x] [|d z]; cbn; try congruence.
  destruct (Z.compare_spec a b), (Z.compare_spec b d); subst; try congruence; intros E1 E2; subst; try congruence.
  - rewrite Z.compare_refl. eauto.
  - destruct (Z.compare_spec b d); [lia|auto|lia].
  - destruct (Z.compare_spec b d); [lia|lia|auto].
  - destruct (Z.compare_spec a d); [lia|auto|lia].
  - destruct (Z.compare_spec a d); [lia|auto|lia].
  - destruct (Z.compare_spec a d); [lia|lia|auto].
  - destruct (Z.compare_spec a d); [lia|lia|auto].
Qed.

Lemma ce_cmp_refl a : ce_cmp a a = Eq.
Proof. unfold ce_cmp. rewrite lex_refl, Z.compare_refl, lex_refl. auto. Qed.
Lemma ce_cmp_eq a b : ce_cmp a b = Eq -> a = b.
Proof.
  unfold ce_cmp. destruct (lex (ce_addr a) (ce_addr b)) eqn:E1; try congruence.
  destruct (Z.compare_spec (ce_type a) (ce_type b)); try congruence. intros E2.
  apply lex_eq in E1, E2. destruct a, b; cbn in *. congruence.
Qed.
Lemma ce_cmp_anti a b : ce_cmp b a = CompOpp (ce_cmp a b).
Proof.
  unfold ce_cmp. rewrite (lex_anti (ce_addr a)), (Z.compare_antisym (ce_type a)), (lex_anti (ce_value a)).
  destruct (lex (ce_addr a) (ce_addr b)); cbn; auto. destruct (ce_type a ?= ce_type b); cbn; auto.
Qed.
Lemma ce_cmp_trans x y z : ce_cmp x y = Lt -> ce_cmp y z = Lt -> ce_cmp x z = Lt.
Proof.
  unfold ce_cmp. intros A B.
  destruct (lex (ce_addr x) (ce_addr y)) eqn:E1; try congruence;
  destruct (lex (ce_addr y) (ce_addr z)) eqn:E2; try congruence.
  - rewrite (lex_trans Eq _ _ _ E1 E2).
    destruct (Z.compare_spec (ce_type x) (ce_type y)), (Z.compare_spec (ce_type y) (ce_type z)); try congruence.
    + destruct (Z.compare_spec (ce_type x) (ce_type z)); try lia. eapply lex_trans; eauto.
    + destruct (Z.compare_spec (ce_type x) (ce_type z)); try lia. auto.
    + destruct (Z.compare_spec (ce_type x) (ce_type z)); try lia. auto.
    + destruct (Z.compare_spec (ce_type x) (ce_type z)); try lia. auto.
  - apply lex_eq in E1. rewrite E1, E2. auto.
  - apply lex_eq in E2. rewrite <- E2, E1. auto.
  - rewrite (lex_trans Lt _ _ _ E1 E2). auto.
Qed.
(** canonical events in nondecreasing order *)
Definition ce_le (x y : cevent) : Prop := ce_cmp x y <> Gt.
#[export] Instance ce_le_trans : Transitive ce_le.
Proof.
  intros x y z. unfold ce_le. intros A B.
  destruct (ce_cmp x y) eqn:E1; try congruence.
  - apply ce_cmp_eq in E1. subst. auto.
  - destruct (ce_cmp y z) eqn:E2; try congruence.
    + apply ce_cmp_eq in E2. subst. congruence.
    + rewrite (ce_cmp_trans _ _ _ E1 E2). congruence.
Qed.
#[export] Instance ce_le_anti : AntiSymm eq ce_le.
Proof.
  intros x y A B. unfold ce_le in *. rewrite ce_cmp_anti in B. destruct (ce_cmp x y) eqn:E; cbn in *; try congruence.
  apply ce_cmp_eq; auto.
Qed.

(** sort *)
Lemma insert_perm x l : Permutation (insert x l) (x :: l).
Proof.
  induction l as [|y l IH]; cbn; [auto|]. destruct (cei_le x y); [auto|]. rewrite IH. apply Permutation_swap.
Qed.
Lemma sort_perm l : Permutation (sort l) l.
Proof. induction l as [|x l IH]; cbn; [auto|]. rewrite insert_perm, IH. auto. Qed.
Definition cei_R (x y : cevent * nat) : Prop := cei_le x y = true.
Lemma cei_total x y : cei_le x y = false -> cei_le y x = true.
Proof.
  unfold cei_le. rewrite (ce_cmp_anti (fst x)). destruct (ce_cmp (fst x) (fst y)); cbn; try congruence.
  intros E. apply Nat.leb_gt in E. apply Nat.leb_le. lia.
Qed.
Lemma insert_sorted x l : Sorted cei_R l -> Sorted cei_R (insert x l).
Proof.
  induction l as [|y l IH]; cbn [insert]; intros S; [constructor; constructor|].
  destruct (cei_le x y) eqn:E; [constructor; [auto|constructor; exact E]|].
  apply Sorted_inv in S as (S & Hd). constructor; [auto|].
  destruct l as [|z l]; cbn [insert].
  - constructor. apply cei_total; auto.
  - inversion Hd; subst. destruct (cei_le x z); constructor; [apply cei_total; auto|auto].
Qed.
Lemma sort_sorted l : Sorted cei_R (sort l).
Proof. induction l; cbn; [constructor|apply insert_sorted; auto]. Qed.
Lemma sorted_fst l : Sorted cei_R l -> Sorted ce_le (map fst l).
Proof.
  induction 1 as [|x l S IH Hd]; cbn [map]; constructor; auto.
  destruct Hd as [|y l E]; cbn [map]; constructor. unfold cei_R, cei_le in E. unfold ce_le.
  destruct (ce_cmp (fst x) (fst y)); congruence.
Qed.

Lemma combine_map_fst {A B} (l : list A) (r : list B) : length l = length r -> map fst (combine l r) = l.
Proof. revert r. induction l as [|x l IH]; intros [|y r] L; cbn in *; try lia; auto. f_equal. apply IH. lia. Qed.
Lemma combine_map_snd {A B} (l : list A) (r : list B) : length l = length r -> map snd (combine l r) = r.
Proof. revert r. induction l as [|x l IH]; intros [|y r] L; cbn in *; try lia; auto. f_equal. apply IH. lia. Qed.

Section E.
  Variable H : list Z -> digest.

  (** canonical_ordering *)
  Definition tagged (cs : list cevent) : list (cevent * nat) := combine cs (seq 0 (length cs)).
  Lemma tagged_map (o : ordered_events) :
    map (fun p => (snd (fst p), snd p)) (combine o (seq 0 (length o))) = tagged (map snd o).
  Proof.
    unfold tagged. rewrite map_length. generalize 0%nat.
    induction o as [|x o IH]; intros k; cbn; [auto|]. f_equal. apply IH.
  Qed.
  Lemma canonical_ordering_perm o : Permutation (canonical_ordering o) (tagged (map snd o)).
  Proof. unfold canonical_ordering. rewrite tagged_map. apply sort_perm. Qed.
  Lemma tagged_fst cs : map fst (tagged cs) = cs.
  Proof.
    unfold tagged. generalize 0%nat. induction cs as [|c cs IH]; intros k; cbn; [auto|]. f_equal. auto.
  Qed.
  Lemma tagged_snd cs : map snd (tagged cs) = seq 0 (length cs).
  Proof.
    unfold tagged. generalize 0%nat. induction cs as [|c cs IH]; intros k; cbn; [auto|]. f_equal. auto.
  Qed.
  Lemma tagged_lookup cs i c : cs !! i = Some c -> (c, i) ∈ tagged cs.
  Proof.
    unfold tagged. intros E. assert (G : forall k, (c, (k + i)%nat) ∈ combine cs (seq k (length cs))).
    { revert i E. induction cs as [|c' cs IH]; intros i E k; [rewrite lookup_nil in E; congruence|].
      cbn [length seq combine]. destruct i as [|i]; cbn in E.
      - injection E as ->. rewrite Nat.add_0_r. left.
      - right. rewrite <- Nat.add_succ_comm. apply IH; auto. }
    apply (G 0%nat).
  Qed.
  Lemma tagged_elem cs i c : (c, i) ∈ tagged cs -> cs !! i = Some c.
  Proof.
    unfold tagged. assert (G : forall k i, (c, i) ∈ combine cs (seq k (length cs)) -> (k <= i)%nat /\ cs !! (i - k)%nat = Some c).
    { clear i. induction cs as [|c' cs IH]; intros k i I; [apply elem_of_nil in I; tauto|].
      cbn [length seq combine] in I. apply elem_of_cons in I as [E|I].
      - injection E as -> ->. rewrite Nat.sub_diag. auto.
      - apply IH in I as (L & E). split; [lia|]. replace (i - k)%nat with (S (i - S k)) by lia. auto. }
    intros I. apply G in I as (_ & E). rewrite Nat.sub_0_r in E. auto.
  Qed.
  Lemma canonical_fst_perm o : Permutation (map fst (canonical_ordering o)) (map snd o).
  Proof. rewrite canonical_ordering_perm. rewrite tagged_fst. auto. Qed.
  Lemma canonical_snd_perm o : Permutation (map snd (canonical_ordering o)) (seq 0 (length o)).
  Proof. rewrite canonical_ordering_perm, tagged_snd, map_length. auto. Qed.
  Lemma canonical_sorted o : Sorted ce_le (map fst (canonical_ordering o)).
  Proof. apply sorted_fst, sort_sorted. Qed.
  Lemma canonical_length o : length (canonical_ordering o) = length o.
  Proof. rewrite <- (map_length snd), canonical_snd_perm, seq_length. auto. Qed.

  (** the canonical list depends only on the multiset of canonical events *)
  Lemma canonical_unique o o' : Permutation (map snd o) (map snd o') ->
    map fst (canonical_ordering o) = map fst (canonical_ordering o').
  Proof.
    intros P. apply (Sorted_unique ce_le); try apply canonical_sorted.
    rewrite !canonical_fst_perm. auto.
  Qed.

  (** reverse_ordering inverts a permutation *)
  Lemma reverse_loop_spec : forall pos index acc,
    Forall (fun p => (p < length acc)%nat) pos -> Z.of_nat (index + length pos) <= 4294967296 -> NoDup pos ->
    exists r, reverse_loop pos index acc = Some r /\ length r = length acc /\
      (forall j p, pos !! j = Some p -> r !! p = Some (index + j)%nat) /\
      (forall q, q ∉ pos -> r !! q = acc !! q).
  Proof.
    induction pos as [|p pos IH]; intros index acc F L N.
    { exists acc. repeat split; auto. intros j p E. rewrite lookup_nil in E. congruence. }
    inversion F as [|? ? Hp F']; subst. inversion N as [|? ? Np N']; subst. cbn [length] in L.
    cbn [reverse_loop]. replace (p <? length acc)%nat with true by (symmetry; apply Nat.ltb_lt; auto).
    unfold u32_of. replace (Z.of_nat index <? 4294967296) with true by lia. cbn [mbind option_bind].
    destruct (IH (S index) (<[p := index]> acc)) as (r & E & Lr & A & B).
    - rewrite insert_length. auto.
    - lia.
    - auto.
    - exists r. rewrite insert_length in Lr. split; [auto|]. split; [auto|]. split.
      + intros j q Eq. destruct j as [|j]; cbn in Eq.
        * injection Eq as <-. rewrite B by auto. rewrite list_lookup_insert by auto. f_equal. lia.
        * rewrite (A j q Eq). f_equal. lia.
      + intros q Nq. apply not_elem_of_cons in Nq as (Nq & Nq'). rewrite B by auto.
        rewrite list_lookup_insert_ne; auto.
  Qed.
  Lemma reverse_ordering_spec pos : Permutation pos (seq 0 (length pos)) -> Z.of_nat (length pos) <= 4294967296 ->
    exists r, reverse_ordering pos = Some r /\ length r = length pos /\
      (forall j p, pos !! j = Some p -> r !! p = Some j).
  Proof.
    intros P L. unfold reverse_ordering.
    destruct (reverse_loop_spec pos 0 (repeat 0%nat (length pos))) as (r & E & Lr & A & _).
    - rewrite repeat_length. apply List.Forall_forall. intros x I. apply (Permutation_in _ P) in I. apply in_seq in I. lia.
    - lia.
    - rewrite P. apply NoDup_seq.
    - exists r. rewrite repeat_length in Lr. auto.
  Qed.

  Lemma mapM_u32 {A} (f : A -> nat) l : Forall (fun x => Z.of_nat (f x) < 4294967296) l ->
    mapM (fun x => u32_of (f x)) l = Some (map f l).
  Proof.
    induction 1 as [|x l E F IH]; [reflexivity|]. cbn [mapM].
    assert (Ex : u32_of (f x) = Some (f x)) by (unfold u32_of; replace (Z.of_nat (f x) <? 4294967296) with true by lia; auto).
    rewrite Ex. cbn [mbind option_bind]. rewrite IH. reflexivity.
  Qed.

  (** the hints: entry i carries the canonical position of the i-th event *)
  Lemma hints_spec o : Z.of_nat (length o) <= 4294967296 ->
    exists h, canonical_order_temporal_hints o = Some h /\
      map fst h = map fst (canonical_ordering o) /\ length h = length o /\
      (forall i c, map snd o !! i = Some c ->
        exists k, map snd h !! i = Some k /\ map fst h !! k = Some c /\ map snd (canonical_ordering o) !! k = Some i).
  Proof.
    intros L. unfold canonical_order_temporal_hints.
    assert (Lc := canonical_length o). assert (Pc := canonical_snd_perm o).
    rewrite (mapM_u32 snd).
    2:{ apply List.Forall_forall. intros x I. apply (in_map snd) in I. apply (Permutation_in _ Pc) in I. apply in_seq in I. lia. }
    cbn [mbind option_bind].
    destruct (reverse_ordering_spec (map snd (canonical_ordering o))) as (r & -> & Lr & A).
    { rewrite map_length, Lc. auto. }
    { rewrite map_length, Lc. auto. }
    rewrite map_length, Lc in Lr.
    eexists. split; [reflexivity|].
    assert (M1 : map fst (map (fun p : (cevent * nat) * nat => (fst (fst p), snd p)) (combine (canonical_ordering o) r)) = map fst (canonical_ordering o)).
    { rewrite map_map. cbn [fst]. rewrite <- (map_map fst fst). f_equal. apply combine_map_fst. rewrite Lc, Lr. auto. }
    assert (M2 : map snd (map (fun p : (cevent * nat) * nat => (fst (fst p), snd p)) (combine (canonical_ordering o) r)) = r).
    { rewrite map_map. cbn [snd]. apply combine_map_snd. rewrite Lc, Lr. auto. }
    split; [exact M1|]. split; [rewrite map_length, combine_length, Lc, Lr; lia|].
    intros i c E. rewrite M1, M2.
    assert (I : (c, i) ∈ canonical_ordering o).
    { rewrite canonical_ordering_perm. apply tagged_lookup; auto. }
    apply elem_of_list_lookup in I as (k & Ek). exists k.
    assert (Es : map snd (canonical_ordering o) !! k = Some i).
    { rewrite list_lookup_fmap, Ek. reflexivity. }
    split; [apply A; auto|]. split; [rewrite list_lookup_fmap, Ek; reflexivity|auto].
  Qed.
  Lemma hints_perm o h : Z.of_nat (length o) <= 4294967296 -> canonical_order_temporal_hints o = Some h ->
    Permutation (map snd h) (seq 0 (length o)).
  Proof.
    intros L E. destruct (hints_spec o L) as (h' & E' & F & Lh & A). rewrite E in E'. injection E' as <-.
    (* an injective list of positions below its length *)
    apply NoDup_Permutation_bis.
    - apply NoDup_ListNoDup. apply NoDup_alt. intros i j k Ei Ej.
      assert (Hi : (i < length o)%nat). { apply lookup_lt_Some in Ei. rewrite map_length in Ei. lia. }
      assert (Hj : (j < length o)%nat). { apply lookup_lt_Some in Ej. rewrite map_length in Ej. lia. }
      destruct (lookup_lt_is_Some_2 (map snd o) i) as (ci & Eci); [rewrite map_length; auto|].
      destruct (lookup_lt_is_Some_2 (map snd o) j) as (cj & Ecj); [rewrite map_length; auto|].
      destruct (A i ci Eci) as (k1 & K1 & _ & P1). destruct (A j cj Ecj) as (k2 & K2 & _ & P2).
      rewrite Ei in K1. rewrite Ej in K2. injection K1 as <-. injection K2 as <-. congruence.
    - rewrite map_length, seq_length. lia.
    - intros x I. apply elem_of_list_In, elem_of_list_lookup in I as (i & Ei).
      assert (Hi : (i < length o)%nat). { apply lookup_lt_Some in Ei. rewrite map_length in Ei. lia. }
      destruct (lookup_lt_is_Some_2 (map snd o) i) as (ci & Eci); [rewrite map_length; auto|].
      destruct (A i ci Eci) as (k1 & K1 & _ & P1). rewrite Ei in K1. injection K1 as <-.
      apply lookup_lt_Some in P1. rewrite map_length, canonical_length in P1. apply in_seq. lia.
  Qed.

  (** the in-VM tape *)
  Lemma bytes_eqb_spec a b : bytes_eqb a b = true <-> a = b.
  Proof. unfold bytes_eqb. destruct (decide (a = b)); split; congruence. Qed.
  Lemma ce_eqb_spec a b : ce_eqb a b = true <-> a = b.
  Proof.
    unfold ce_eqb. rewrite !andb_true_iff, !bytes_eqb_spec, Z.eqb_eq. destruct a, b; cbn. split.
    - intros ((-> & ->) & ->). auto.
    - intros [= -> -> ->]; auto.
  Qed.

  (** one accepted emission *)
  Lemma vm_emit_inv t e t' : vm_emit H t e = Some t' ->
    exists c0 k c1 i1, ve_reader t !! ve_index t = Some (c0, k) /\ ve_seen t !! k = Some false /\
      ve_reader t !! k = Some (c1, i1) /\ c1 = from_event H e /\
      t' = VE (ve_reader t) (<[k := true]> (ve_seen t)) (S (ve_index t)).
  Proof.
    unfold vm_emit. destruct (Nat.ltb_spec (ve_index t) (length (ve_reader t))); [|congruence].
    destruct (ve_reader t !! ve_index t) as [[c0 k]|] eqn:E1; cbn; [|congruence].
    destruct (ve_seen t !! k) as [sn|] eqn:E2; cbn; [|congruence]. destruct sn; cbn; [congruence|].
    destruct (ve_reader t !! k) as [[c1 i1]|] eqn:E3; cbn; [|congruence].
    destruct (ce_eqb c1 (from_event H e)) eqn:E4; [|congruence]. apply ce_eqb_spec in E4.
    intros [= <-]. exists c0, k, c1, i1. auto.
  Qed.
  Lemma vm_emit_ok t e c0 k i1 : ve_reader t !! ve_index t = Some (c0, k) -> ve_seen t !! k = Some false ->
    ve_reader t !! k = Some (from_event H e, i1) ->
    vm_emit H t e = Some (VE (ve_reader t) (<[k := true]> (ve_seen t)) (S (ve_index t))).
  Proof.
    intros E1 E2 E3. unfold vm_emit. pose proof (lookup_lt_Some _ _ _ E1).
    replace (ve_index t <? length (ve_reader t))%nat with true by (symmetry; apply Nat.ltb_lt; auto).
    rewrite E1. cbn. rewrite E2. cbn. rewrite E3. cbn.
    replace (ce_eqb (from_event H e) (from_event H e)) with true by (symmetry; apply ce_eqb_spec; auto). auto.
  Qed.

  (** invariant: [ks] are the positions used so far, in order *)
  Lemma vm_emits_inv es : forall t t', vm_emits H t es = Some t' ->
    exists ks, length ks = length es /\ NoDup ks /\
      ve_reader t' = ve_reader t /\ ve_index t' = (ve_index t + length es)%nat /\
      length (ve_seen t') = length (ve_seen t) /\
      (forall j, ks !! j = (snd <$> ve_reader t !! (ve_index t + j)%nat) \/ (length es <= j)%nat) /\
      (forall k, k ∈ ks -> ve_seen t !! k = Some false /\ (k < length (ve_reader t))%nat) /\
      (forall j k, ks !! j = Some k -> fst <$> ve_reader t !! k = from_event H <$> es !! j) /\
      (forall k, k ∉ ks -> ve_seen t' !! k = ve_seen t !! k) /\
      (forall k, k ∈ ks -> ve_seen t' !! k = Some true).
  Proof.
    induction es as [|e es IH]; intros t t' E.
    { injection E as <-. exists []. cbn [length]. repeat split; auto.
      - constructor.
      - intros j. right. lia.
      - apply elem_of_nil in H0. tauto.
      - apply elem_of_nil in H0. tauto.
      - intros j k E. rewrite lookup_nil in E. congruence.
      - intros k I. apply elem_of_nil in I. tauto. }
    cbn [vm_emits] in E. destruct (vm_emit H t e) as [t1|] eqn:E1; [|discriminate].
    cbn [mbind option_bind] in E. apply vm_emit_inv in E1 as (c0 & k & c1 & i1 & A1 & A2 & A3 & A4 & ->).
    destruct (IH _ _ E) as (ks & L & N & R & I & Ls & P & Q & V & S1 & S2). clear IH.
    cbn [ve_reader ve_index ve_seen] in *.
    assert (Nk : k ∉ ks).
    { intros Ik. apply Q in Ik as (Ik & _). rewrite list_lookup_insert in Ik; [congruence|].
      eapply lookup_lt_Some; eauto. }
    exists (k :: ks). cbn [length]. rewrite insert_length in Ls.
    split; [lia|]. split; [constructor; auto|]. split; [auto|]. split; [lia|]. split; [auto|]. split.
    { intros [|j].
      - left. cbn. rewrite Nat.add_0_r, A1. auto.
      - destruct (P j) as [Pj|Pj]; [left|right; lia]. change ((k :: ks) !! S j) with (ks !! j). rewrite Pj. do 2 f_equal. lia. }
    split.
    { intros q Iq. apply elem_of_cons in Iq as [->|Iq].
      - split; [auto|eapply lookup_lt_Some; eauto].
      - assert (q <> k) by congruence. apply Q in Iq as (Iq & ?). rewrite list_lookup_insert_ne in Iq; auto. }
    split.
    { intros [|j] q Eq; cbn in Eq.
      - injection Eq as <-. cbn. rewrite A3. cbn. congruence.
      - apply V in Eq. auto. }
    split.
    - intros q Nq. apply not_elem_of_cons in Nq as (Nq & Nq'). rewrite S1 by auto. rewrite list_lookup_insert_ne; auto.
    - intros q Iq. apply elem_of_cons in Iq as [->|Iq]; [|auto]. rewrite S1 by auto.
      apply list_lookup_insert. eapply lookup_lt_Some; eauto.
  Qed.

  Lemma NoDup_full ks n : NoDup ks -> length ks = n -> (forall k, k ∈ ks -> (k < n)%nat) -> Permutation ks (seq 0 n).
  Proof.
    intros N L F. apply NoDup_Permutation_bis.
    - apply NoDup_ListNoDup; auto.
    - rewrite seq_length. lia.
    - intros x I. apply in_seq. apply elem_of_list_In in I. apply F in I. lia.
  Qed.

  (** accepted through clean shutdown *)
  Lemma vm_emits_full tape es t : vm_emits H (populate_events tape) es = Some t ->
    ve_index t = length (ve_reader t) ->
    length es = length tape /\ Permutation (map snd tape) (seq 0 (length tape)) /\
    (forall i c k, tape !! i = Some (c, k) -> exists c' i' e, tape !! k = Some (c', i') /\ es !! i = Some e /\ c' = from_event H e).
  Proof.
    intros E F. destruct (vm_emits_inv _ _ _ E) as (ks & L & N & R & I & Ls & P & Q & V & _).
    cbn [populate_events ve_reader ve_index ve_seen] in *. rewrite R, I in F. cbn [Nat.add] in F.
    assert (Ek : ks = map snd tape).
    { apply list_eq_same_length with (length tape); [rewrite map_length; auto|lia|].
      intros j x y Hj Ex Ey. destruct (P j) as [Pj|Pj]; [|lia]. rewrite Pj in Ex.
      rewrite list_lookup_fmap in Ey. change (0 + j)%nat with j in Ex; rewrite Ex in Ey; injection Ey; auto. }
    split; [auto|]. split.
    - rewrite <- Ek. apply NoDup_full; [auto|lia|]. intros k Ik. apply Q in Ik. tauto.
    - intros i c k Et. assert (Ei : ks !! i = Some k) by (rewrite Ek, list_lookup_fmap, Et; auto).
      pose proof (V _ _ Ei) as Vi. assert (Ik : k ∈ ks) by (eapply elem_of_list_lookup_2; eauto).
      apply Q in Ik as (_ & Lk). apply lookup_lt_is_Some_2 in Lk as ((c' & i') & Ec). rewrite Ec in Vi. cbn in Vi.
      apply lookup_lt_Some in Et. rewrite <- F in Et. apply lookup_lt_is_Some_2 in Et as (e & Ee). rewrite Ee in Vi.
      exists c', i', e. injection Vi as ->. auto.
  Qed.

  Lemma perm_map_lookup {A B} (l : list A) (l' : list B) (p : list nat) (f : B -> A) :
    Permutation p (seq 0 (length l)) -> length l' = length l ->
    (forall i k, p !! i = Some k -> exists b, l' !! i = Some b /\ l !! k = Some (f b)) ->
    Permutation (map f l') l.
  Proof.
    intros P L F. transitivity (omap (fun k => l !! k) p).
    - apply Permutation_length in P as Lp. rewrite seq_length in Lp. rewrite <- L in Lp. clear P.
      revert p Lp F. induction l' as [|b l' IH]; intros p Lp F.
      + destruct p; [constructor|cbn in Lp; lia].
      + destruct p as [|k p]; [cbn in Lp; lia|].
        destruct (F 0%nat k eq_refl) as (b' & Eb & Ek). injection Eb as <-. cbn. rewrite Ek.
        constructor. revert Lp F. clear. intros Lp F.
        assert (G : forall i k, p !! i = Some k -> exists b, l' !! i = Some b /\ l !! k = Some (f b)).
        { intros i q E. apply (F (S i) q E). }
        cbn in Lp. assert (Lp' : length p = length l') by lia. clear F Lp. revert p G Lp'.
        induction l' as [|c l' IH]; intros p G Lp; (destruct p as [|q p]; [try constructor; cbn in Lp; try lia|cbn in Lp; try lia]).
        destruct (G 0%nat q eq_refl) as (c' & Ec & Eq). injection Ec as <-. cbn. rewrite Eq. constructor.
        apply IH; [|lia]. intros i x E. apply (G (S i) x E).
    - rewrite P. clear. assert (G : forall k pre, length pre = k -> omap (fun i => (pre ++ l) !! i) (seq k (length l)) = l).
      { induction l as [|a l IH]; intros k pre Lk; [reflexivity|]. cbn [length seq].
        cbn. rewrite lookup_app_r by lia. rewrite Lk, Nat.sub_diag. cbn. f_equal.
        replace (pre ++ a :: l) with ((pre ++ [a]) ++ l) by (rewrite <- app_assoc; auto).
        apply IH. rewrite app_length. cbn. lia. }
      pose proof (G 0%nat [] eq_refl) as G0. cbn [app] in G0. rewrite G0. auto.
  Qed.
  Lemma vm_emits_permutation tape es t : vm_emits H (populate_events tape) es = Some t ->
    ve_index t = length (ve_reader t) -> Permutation (map (from_event H) es) (map fst tape).
  Proof.
    intros E F. destruct (vm_emits_full _ _ _ E F) as (L & P & V).
    apply (perm_map_lookup _ _ (map snd tape)).
    - rewrite map_length. auto.
    - rewrite map_length. auto.
    - intros i k Ek. rewrite list_lookup_fmap in Ek. destruct (tape !! i) as [[c k']|] eqn:Et; [|discriminate].
      cbn in Ek. injection Ek as <-. destruct (V i c k' Et) as (c' & i' & e & Ec & Ee & ->).
      exists e. split; [auto|]. rewrite list_lookup_fmap, Ec. auto.
  Qed.

  (** natively recorded hints are accepted *)
  Lemma vm_emits_accept tape : forall es done t,
    length (done ++ es) = length tape ->
    ve_reader t = tape -> ve_index t = length done -> length (ve_seen t) = length tape ->
    NoDup (map snd tape) ->
    (forall i e, (done ++ es) !! i = Some e -> exists c k i', tape !! i = Some (c, k) /\ tape !! k = Some (from_event H e, i')) ->
    (forall j c k, (length done <= j)%nat -> tape !! j = Some (c, k) -> ve_seen t !! k = Some false) ->
    exists t', vm_emits H t es = Some t' /\ ve_index t' = length tape /\ ve_reader t' = tape.
  Proof.
    induction es as [|e es IH]; intros done t L R I Ls N F S.
    - exists t. rewrite app_nil_r in L. split; [auto|]. split; [lia|auto].
    - cbn [vm_emits]. destruct (F (length done) e) as (c & k & i' & E1 & E2).
      { rewrite lookup_app_r by lia. rewrite Nat.sub_diag. auto. }
      rewrite (vm_emit_ok t e c k i'); [|rewrite R, I; auto|eapply S; eauto|rewrite R; auto].
      cbn [mbind option_bind]. apply (IH (done ++ [e])).
      + rewrite <- app_assoc. auto.
      + auto.
      + cbn. rewrite app_length. cbn. lia.
      + cbn. rewrite insert_length. auto.
      + auto.
      + intros i e' Ee. rewrite <- app_assoc in Ee. apply F. auto.
      + intros j c' k' Lj Ej. rewrite app_length in Lj. cbn in Lj. cbn [ve_seen].
        rewrite list_lookup_insert_ne; [apply (S j c' k'); [lia|auto]|].
        intros ->. assert (length done = j); [|lia].
        eapply (proj1 (NoDup_alt (map snd tape)) N); rewrite list_lookup_fmap; [rewrite E1|rewrite Ej]; reflexivity.
  Qed.
  Lemma native_hints_accepted es h : Z.of_nat (length es) <= 4294967296 ->
    canonical_order_temporal_hints (ordered_new H es) = Some h ->
    exists t, vm_emits H (populate_events h) es = Some t /\ ve_index t = length h /\ ve_reader t = h.
  Proof.
    intros L E. assert (Lo : length (ordered_new H es) = length es) by apply map_length.
    destruct (hints_spec (ordered_new H es)) as (h' & E' & F & Lh & A); [rewrite Lo; auto|].
    rewrite E in E'. injection E' as <-.
    assert (Msnd : map snd (ordered_new H es) = map (from_event H) es).
    { unfold ordered_new. rewrite map_map. auto. }
    pose proof (hints_perm _ _ ltac:(rewrite Lo; auto) E) as P.
    apply (vm_emits_accept h es [] (populate_events h)); auto.
    - cbn. lia.
    - cbn. apply repeat_length.
    - rewrite P. apply NoDup_seq.
    - intros i e Ee. cbn in Ee. destruct (A i (from_event H e)) as (k & K1 & K2 & _).
      { rewrite Msnd, list_lookup_fmap, Ee. auto. }
      rewrite list_lookup_fmap in K1. rewrite list_lookup_fmap in K2. destruct (h !! i) as [[c k']|] eqn:Ei; [|discriminate]. cbn in K1. injection K1 as <-.
      destruct (h !! k') as [[c' i']|] eqn:Ek; [|discriminate]. cbn in K2. injection K2 as <-. eauto 6.
    - intros j c k _ Ej. cbn. replace (repeat false (length h)) with (replicate (length h) false) by (clear; induction (length h); cbn; congruence). apply lookup_replicate_2. assert (I : k ∈ map snd h).
      { apply elem_of_list_lookup. exists j. rewrite list_lookup_fmap, Ej. auto. }
      rewrite P in I. apply elem_of_seq in I. lia.
  Qed.
End E.
