(** The event root of the match proof. *)
From stdpp Require Import prelude gmap sorting.
From Verif Require Import Field RecModel RecSpec NodeTreeModel NodeTreeSpec NodeTreeProofs NodeAddr NodeTreeSdk NodeTreeProps NodeMerge NodeMergeProps NodeMatchModel NodeMatchSpec.
Open Scope Z_scope.

Lemma leaves_nonempty {A} (t : btree A) : leaves t <> [].
Proof. induction t; cbn; [done|]. intros C. apply app_eq_nil in C as (C & _). auto. Qed.
Lemma app_cut' {A} (Q : A -> bool) (a b c d : list A) : a ++ b = c ++ d -> Forall (fun x => Q x = true) a -> Forall (fun x => Q x = false) b ->
  Forall (fun x => Q x = true) c -> Forall (fun x => Q x = false) d -> a = c /\ b = d.
Proof. apply app_cut. Qed.
(** addressed leaves determine their tree *)
Lemma Trie_unique {A} (ad : A -> Z) l t : Trie ad l t -> forall t', Trie ad l t' -> t = t'.
Proof.
  assert (BS : forall l a l1 l2 b p, l = l1 ++ l2 -> l1 <> [] -> l2 <> [] -> Forall (fun x : A => ad x = a) l -> Forall (fun x => ad x / 2 ^ b = 2 * p) l1 -> Forall (fun x => ad x / 2 ^ b = 2 * p + 1) l2 -> False).
  { clear. intros l a l1 l2 b p -> N1 N2 F F1 F2. destruct l1 as [|x l1], l2 as [|y l2]; try done. apply List.Forall_app in F as (G1 & G2).
    apply List.Forall_inv in G1, G2, F1, F2. subst a. rewrite G2 in F2. clear -F1 F2. lia. }
  assert (NE : forall l t, Trie ad l t -> l <> []) by (intros l0 t0 T0 ->; apply Trie_leaves in T0; eapply leaves_nonempty; eauto).
  induction 1 as [l a t F R|l1 l2 b p t1 t2 B F1 F2 T1 IH1 T2 IH2]; intros t' T'.
  - inversion T' as [? a' ? F' R'|m1 m2 b' p' t1' t2' B' G1 G2 T1' T2' El Et]; subst.
    + eapply Rd_fun; eauto.
    + exfalso. eapply (BS _ a m1 m2); eauto.
  - inversion T' as [? a' ? F' R'|m1 m2 b' p' t1' t2' B' G1 G2 T1' T2' El Et].
    { exfalso. subst. eapply (BS _ a' l1 l2); eauto. }
    pose proof (NE _ _ T1) as N1. pose proof (NE _ _ T2) as N2. pose proof (NE _ _ T1') as N1'. pose proof (NE _ _ T2') as N2'.
    destruct l1 as [|u r]; [done|]. destruct m1 as [|u' r']; [done|]. assert (u' = u) as -> by (cbn in El; congruence).
    destruct (exists_last N2) as (i2 & w & Ew). destruct (exists_last N2') as (j2 & w' & Ew').
    assert (Hw : w = w'). { rewrite Ew, Ew' in El. rewrite !app_assoc in El. apply app_inj_tail in El as (_ & El). auto. }
    assert (Q1 := List.Forall_inv F1). assert (Q1' := List.Forall_inv G1). cbn in Q1, Q1'.
    assert (Q2 : ad w / 2 ^ b = 2 * p + 1). { rewrite Ew in F2. apply List.Forall_app in F2 as (_ & F2). inversion F2; auto. }
    assert (Q2' : ad w / 2 ^ b' = 2 * p' + 1). { subst w'. rewrite Ew' in G2. apply List.Forall_app in G2 as (_ & G2). inversion G2; auto. }
    assert (NL : forall b b' p p', 0 <= b -> ad u / 2 ^ b = 2 * p -> ad w / 2 ^ b = 2 * p + 1 -> ad u / 2 ^ b' = 2 * p' -> ad w / 2 ^ b' = 2 * p' + 1 -> ~ b < b').
    { clear. intros b b' p p' B A1 A2 A3 A4 L. 
      assert (Hq : forall x, x / 2 ^ b' = x / 2 ^ b / 2 / 2 ^ (b' - b - 1)).
      { clear -B L. intros x. pose proof (div_pow2_add (x / 2 ^ b) 1 (b' - b - 1)) as Dd. rewrite Z.pow_1_r in Dd. rewrite Dd by lia. rewrite div_pow2_add by lia. f_equal. f_equal. lia. }
      rewrite Hq, A1 in A3. rewrite Hq, A2 in A4. clear -A3 A4. replace ((2 * p + 1) / 2) with p in A4 by (apply Z.div_unique with 1; [left|]; lia).
      replace (2 * p / 2) with p in A3 by (apply Z.div_unique with 0; [left|]; lia). clear -A3 A4. lia. }
    pose proof (NL _ _ _ _ B Q1 Q2 Q1' Q2') as X1. pose proof (NL _ _ _ _ B' Q1' Q2' Q1 Q2) as X2. assert (b' = b) as -> by (clear -X1 X2; lia).
    assert (p' = p) as -> by (clear -Q1 Q1'; lia). clear NL X1 X2 Q1 Q1' Q2 Q2' BS.
    destruct (app_cut (fun x => Z.eqb (ad x / 2 ^ b) (2 * p)) (u :: r') m2 (u :: r) l2) as (E1 & E2); auto;
      try (eapply Forall_impl; [|eassumption]; intros x Ex; cbn in Ex; (apply Z.eqb_eq || apply Z.eqb_neq); clear -Ex; lia).
    rewrite E1 in T1'. rewrite E2 in T2'. rewrite (IH1 _ T1'), (IH2 _ T2'). auto.
Qed.
Lemma ETree_root {E} H (l : list (dig * Z * E)) t : ETree H l t -> en_hash t = root (f2to1 H) ev_hs (tree_of t).
Proof.
  assert (RH : forall a l t, Rounds (ev_node H a) l t -> Forall (fun t => en_hash t = root (f2to1 H) ev_hs (tree_of t)) l -> en_hash (E := E) t = root (f2to1 H) ev_hs (tree_of t)).
  { clear. intros a l t. induction 1 as [x|u v l x R IH]; intros F; [inversion F; auto|]. apply IH. clear -F.
    induction (u :: v :: l) as [|y|c d k IH] using pair_ind; auto. inversion F as [|? ? Fc F']; subst. inversion F' as [|? ? Fd F'']; subst.
    cbn. constructor; [cbn; congruence|auto]. }
  induction 1 as [l a t Ba F R|l1 l2 b p t1 t2 B F1 F2 T1 IH1 T2 IH2].
  - apply (RH _ _ _ R). apply List.Forall_forall. intros u I. apply in_map_iff in I as ([[h q] e] & <- & I). auto.
  - cbn. congruence.
Qed.
Lemma Trie_sorted {A} (ad : A -> Z) l t : Trie ad l t -> by_addr ad l.
Proof.
  induction 1 as [l a t F R|l1 l2 b p t1 t2 B F1 F2 T1 IH1 T2 IH2]; intros i j x y L Ex Ey.
  - rewrite List.Forall_forall in F. apply elem_of_list_lookup_2, elem_of_list_In, F in Ex. apply elem_of_list_lookup_2, elem_of_list_In, F in Ey. cbn in *. lia.
  - pose proof (Z.pow_pos_nonneg 2 b ltac:(lia) B) as Pb. rewrite List.Forall_forall in F1, F2. apply lookup_app_Some in Ex as [Ex|(Li & Ex)], Ey as [Ey|(Lj & Ey)].
    + apply (IH1 i j); auto.
    + apply elem_of_list_lookup_2, elem_of_list_In, F1 in Ex. apply elem_of_list_lookup_2, elem_of_list_In, F2 in Ey. cbn in Ex, Ey.
      assert (~ ad y < ad x); [|lia]. intros C. assert (ad y / 2 ^ b <= ad x / 2 ^ b) by (apply Z.div_le_mono; lia). lia.
    + apply lookup_lt_Some in Ey. lia.
    + apply (IH2 (i - length l1)%nat (j - length l1)%nat); auto. lia.
Qed.
Lemma runs_ok' {L} (ad : L -> Z) l : by_addr ad l -> addr_range ad l ->
  concat (map snd (runs ad l)) = l /\ incr' (runs ad l) /\
  Forall (fun g => snd g <> [] /\ Forall (fun x => ad x = fst g) (snd g) /\ 0 <= fst g < 2 ^ 64) (runs ad l).
Proof.
  intros Sr R. 
  destruct (runs_ok (A := nat * Z) (T := unit) (fun x => (S (fst x), snd x / 2)) (fun _ _ _ => tt) (fun h q => (h, q)) ad (fun _ => tt) (fun _ _ => True)) with (l := l) as (C & I & F & _); auto.
  intros h q q' [= ]. auto.
Qed.

Section Root.
  Context (H : list Z -> dig).
  Notation two := (f2to1 H).
  Definition comb (l : list dig) : option dig := match l with [] => None | x :: r => Some (fold_left two r x) end.
  Lemma acc_all evs : forall m a, fold_left (acc_one H) evs m !! a =
    match m !! a with None => comb (hashes_at a evs) | Some d => Some (fold_left two (hashes_at a evs) d) end.
  Proof.
    induction evs as [|[b d] evs IH]; intros m a; cbn [fold_left]. { cbn. destruct (m !! a); auto. }
    rewrite IH. unfold hashes_at. rewrite list.filter_cons. unfold acc_one. cbn [fst snd]. destruct (decide (b = a)) as [->|N].
    - rewrite lookup_insert. cbn [map snd]. destruct (m !! a); auto.
    - rewrite lookup_insert_ne by auto. auto.
  Qed.
  Lemma in_order_perm m : in_order m ≡ₚ map_to_list m.
  Proof. apply merge_sort_Permutation. Qed.
  Lemma in_order_sorted m : StronglySorted (fun x y => fst x < fst y) (in_order m).
  Proof.
    assert (S : StronglySorted key_le (in_order m)).
    { apply StronglySorted_merge_sort; [intros x y z; unfold key_le; lia|intros x y; unfold key_le; lia]. }
    assert (N : base.NoDup (map fst (in_order m))). { rewrite in_order_perm. apply NoDup_fst_map_to_list. }
    induction S as [|x l S IH F]; [constructor|]. cbn in N. apply list.NoDup_cons in N as (N1 & N2). constructor; [auto|].
    apply List.Forall_forall. intros y Iy. rewrite List.Forall_forall in F. specialize (F y Iy). unfold key_le in F.
    assert (fst x <> fst y); [|lia]. intros C. apply N1. rewrite C. apply elem_of_list_In, in_map. auto.
  Qed.
  Definition few (l : list (Z * dig)) : Prop := forall a, (length (hashes_at a l) <= 3)%nat.

  Section Value.
    Context {E : Type} (l : list (dig * Z * E)) (m : gmap Z dig).
    Hypothesis rng : addr_range ev_ad l.
    Hypothesis srt : by_addr ev_ad l.
    Hypothesis agree : forall a, m !! a = comb (hashes_at a (map addr_hash l)).
    Hypothesis few_l : few (map addr_hash l).
    Notation groups := (runs ev_ad l).
    Definition gval (g : Z * list (dig * Z * E)) : dig := default dzero (comb (map ev_hs (snd g))).
    Lemma hashes_filter (k : list (dig * Z * E)) a : hashes_at a (map addr_hash k) = map ev_hs (base.filter (fun x => ev_ad x = a) k).
    Proof.
      unfold hashes_at. induction k as [|x k IH]; [auto|]. cbn [map]. rewrite !filter_cons. cbn [addr_hash fst]. destruct (decide (ev_ad x = a)); cbn; rewrite IH; auto.
    Qed.
    Lemma incr_sorted {L} (G : list (Z * list L)) : incr' G -> StronglySorted (fun x y => fst x < fst y) G.
    Proof.
      intros I. apply Sorted_StronglySorted; [intros x y z; lia|]. induction G as [|x [|y G] IH]; [constructor|repeat constructor|].
      destruct I as (I1 & I2). constructor; [auto|constructor; auto].
    Qed.
    Lemma group_filter : forall G : list (Z * list (dig * Z * E)), StronglySorted (fun x y => fst x < fst y) G -> Forall (fun g => Forall (fun x => ev_ad x = fst g) (snd g)) G ->
      (forall g, g ∈ G -> base.filter (fun x => ev_ad x = fst g) (concat (map snd G)) = snd g) /\
      (forall a, a ∉ map fst G -> base.filter (fun x => ev_ad x = a) (concat (map snd G)) = []).
    Proof.
      assert (FA : forall (k : list (dig * Z * E)) a, Forall (fun x => ev_ad x = a) k -> base.filter (fun x => ev_ad x = a) k = k).
      { clear. induction k as [|x k IH]; intros a F; [auto|]. inversion F; subst. rewrite list.filter_cons, decide_True by auto. f_equal. auto. }
      assert (FN : forall (k : list (dig * Z * E)) a b, a <> b -> Forall (fun x => ev_ad x = a) k -> base.filter (fun x => ev_ad x = b) k = []).
      { clear. induction k as [|x k IH]; intros a b N F; [auto|]. inversion F; subst. rewrite list.filter_cons, decide_False by auto. eapply IH; eauto. }
      induction 1 as [|g G S IH F]; intros Fa; [split; [set_solver|auto]|]. inversion Fa as [|? ? Fg FG]; subst. destruct (IH FG) as (I1 & I2).
      cbn [map concat]. split.
      - intros g' Ig. rewrite list.filter_app. apply elem_of_cons in Ig as [->|Ig].
        + rewrite FA by auto. rewrite I2; [rewrite app_nil_r; auto|]. intros C. apply elem_of_list_In, in_map_iff in C as (y & Ey & Iy). rewrite List.Forall_forall in F. specialize (F y Iy). lia.
        + rewrite (FN _ (fst g)), I1; auto. rewrite List.Forall_forall in F. apply elem_of_list_In in Ig. specialize (F _ Ig). lia.
      - intros a Na. rewrite list.filter_app. cbn in Na. rewrite (FN _ (fst g)), I2; auto; set_solver.
    Qed.
    Lemma ordered_groups : in_order m = map (fun g => (fst g, gval g)) groups.
    Proof.
      destruct (runs_ok' ev_ad l srt rng) as (C & I & F). pose proof (incr_sorted _ I) as SG.
      assert (Fa : Forall (fun g => Forall (fun x => ev_ad x = fst g) (snd g)) groups) by (eapply Forall_impl; [|exact F]; cbn; tauto).
      destruct (group_filter groups SG Fa) as (G1 & G2). rewrite C in G1, G2.
      assert (As : AntiSymm (=) (fun x y : Z * dig => fst x < fst y)) by (intros x y ? ?; lia).
      apply (@StronglySorted_unique _ (fun x y : Z * dig => fst x < fst y) As).
      - apply in_order_sorted.
      - clear -SG. induction SG as [|g G S IH F]; [constructor|]. cbn. constructor; [auto|]. apply List.Forall_forall. intros y Iy. apply in_map_iff in Iy as (z & <- & Iz).
        rewrite List.Forall_forall in F. apply (F z Iz).
      - rewrite in_order_perm. apply NoDup_Permutation.
        + apply NoDup_map_to_list.
        + apply (NoDup_fmap_1 fst). change (fmap fst) with (map (@fst Z dig)). rewrite map_map. cbn [fst].
          clear -SG. induction SG as [|g G S IH F]; [constructor|]. cbn. constructor; [|auto]. intros Ig. apply elem_of_list_In, in_map_iff in Ig as (y & Ey & Iy).
          rewrite List.Forall_forall in F. specialize (F y Iy). lia.
        + intros [a d]. rewrite elem_of_map_to_list, agree, hashes_filter. split.
          * intros Ed. destruct (decide (a ∈ map fst groups)) as [Ia|Na]; [|rewrite (G2 a Na) in Ed; done].
            apply elem_of_list_In, in_map_iff in Ia as (g & <- & Ig). apply elem_of_list_In in Ig. rewrite (G1 g Ig) in Ed.
            apply elem_of_list_In, in_map_iff. exists g. split; [|apply elem_of_list_In; auto]. unfold gval. rewrite Ed. auto.
          * intros Iad. apply elem_of_list_In, in_map_iff in Iad as (g & Eg & Ig). injection Eg as <- <-. rewrite (G1 g) by (apply elem_of_list_In; auto).
            rewrite List.Forall_forall in F. specialize (F g Ig). destruct F as (N & _). unfold gval. destruct (snd g); [done|]. auto.
    Qed.
    Lemma few_groups : Forall (fun g => (1 <= length (snd g) <= 3)%nat) groups.
    Proof.
      destruct (runs_ok' ev_ad l srt rng) as (C & I & F). pose proof (incr_sorted _ I) as SG.
      assert (Fa : Forall (fun g => Forall (fun x => ev_ad x = fst g) (snd g)) groups) by (eapply Forall_impl; [|exact F]; cbn; tauto).
      destruct (group_filter groups SG Fa) as (G1 & _). rewrite C in G1. rewrite List.Forall_forall in *. intros g Ig.
      specialize (few_l (fst g)). rewrite hashes_filter, G1, map_length in few_l by (apply elem_of_list_In; auto).
      destruct (F g Ig) as (N & _). destruct (snd g); [done|]. cbn in *. lia.
    Qed.
    Definition GRep (G : list (Z * list (dig * Z * E))) (d : dig) : Prop :=
      base.NoDup (map fst G) -> Forall (fun g => (1 <= length (snd g) <= 3)%nat /\ Forall (fun x => ev_ad x = fst g) (snd g)) G ->
      exists tr, Trie ev_ad (concat (map snd G)) tr /\ d = root two ev_hs tr.
    Theorem finalize_root tr : Trie ev_ad l tr ->
      option_map (option_map snd) (by_address add1 (fun _ => two) 65 (map (fun x => (base (fst x), snd x)) (in_order m))) = Some (Some (root two ev_hs tr)).
    Proof.
      intros T. destruct (runs_ok' ev_ad l srt rng) as (C & I & F). pose proof (incr_sorted _ I) as SG.
      rewrite ordered_groups, map_map. cbn [fst snd].
      assert (Nl : l <> []) by (intros ->; apply Trie_leaves in T; eapply leaves_nonempty; eauto).
      destruct (by_address_ok add1 (fun _ => two) Kb (fun g : Z * list (dig * Z * E) => fst g) gval GRep Kb_inc Kb_inj) with (l := groups) as (k & d & E1 & R1).
      - intros G a d Ba Fa Rd ND Fg. destruct G as [|g [|g' G]]; [inversion Rd| |].
        + inversion Rd; subst. clear Rd ND. inversion Fg as [|? ? (Lg & Ag) _]; subst. cbn [map concat]. rewrite app_nil_r. 
          assert (RR : exists tr, Rounds Nd (map Lf (snd g)) tr /\ gval g = root two ev_hs tr).
          { unfold gval. destruct (snd g) as [|x [|y [|z [|? ?]]]]; cbn in Lg; try lia; eexists; (split; [repeat constructor|reflexivity]). }
          destruct RR as (tr' & Rt & Ev). exists tr'. split; [|auto]. apply (TBucket _ _ (fst g)); auto.
        + exfalso. inversion Fa as [|? ? A1 Fa']; subst. inversion Fa' as [|? ? A2 _]; subst. cbn in ND. apply list.NoDup_cons in ND as (ND & _). apply ND. rewrite A2. set_solver.
      - intros L1 L2 b p d1 d2 F1 F2 R1 R2 ND Fg. rewrite map_app in ND. apply list.NoDup_app in ND as (ND1 & _ & ND2). apply List.Forall_app in Fg as (Fg1 & Fg2).
        destruct (R1 ND1 Fg1) as (t1 & T1 & ->), (R2 ND2 Fg2) as (t2 & T2 & ->). rewrite map_app, concat_app. exists (Nd t1 t2). split; [|auto].
        assert (Tr : forall (L : list (Z * list (dig * Z * E))) q, Forall (fun x => fst x / 2 ^ Z.of_nat b = q) L -> Forall (fun g => (1 <= length (snd g) <= 3)%nat /\ Forall (fun x => ev_ad x = fst g) (snd g)) L ->
          Forall (fun x => ev_ad x / 2 ^ Z.of_nat b = q) (concat (map snd L))).
        { clear. intros L q. induction 1 as [|g L Hq F IH]; intros Fg; [constructor|]. inversion Fg as [|? ? (_ & Ag) Fg']; subst. cbn. apply List.Forall_app. split; [|auto].
          eapply Forall_impl; [|exact Ag]. cbn. intros x ->. auto. }
        apply (TSplit _ _ _ (Z.of_nat b) p); auto. lia.
      - intros E0. rewrite E0 in C. cbn in C. auto.
      - clear -SG. induction SG as [|g G Sg IH Fg]; intros i j x y Lij Ex Ey; [done|]. destruct i as [|i], j as [|j]; try lia; cbn in Ex, Ey.
        + injection Ex as <-. rewrite List.Forall_forall in Fg. apply elem_of_list_lookup_2, elem_of_list_In, Fg in Ey. lia.
        + apply (IH i j); auto. lia.
      - eapply Forall_impl; [|exact F]. cbn. tauto.
      - change (fun x => (base (fst x), gval x)) with (fun x : Z * list (dig * Z * E) => (Kb 0 (fst x), gval x)). rewrite E1. cbn. do 2 f_equal.
        destruct R1 as (tr' & T' & ->).
        + clear -SG. induction SG as [|g G S IH F]; [constructor|]. cbn. constructor; [|auto]. intros Ig. apply elem_of_list_In, in_map_iff in Ig as (y & Ey & Iy).
          rewrite List.Forall_forall in F. specialize (F y Iy). lia.
        + pose proof few_groups as FG. rewrite List.Forall_forall in *. intros g Ig. split; [auto|]. apply F. auto.
        + rewrite C in T'. f_equal. eapply Trie_unique; eauto.
    Qed.
  End Value.
End Root.
