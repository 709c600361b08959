(** C70: the event root of the match proof and of the transaction proof (node/src/block_proposer/matches.rs, transactions.rs). *)
From stdpp Require Import prelude gmap sorting.
From Verif Require Import Field RecModel RecSpec NodeTreeModel NodeTreeSpec NodeTreeProofs NodeAddr NodeTreeSdk NodeTreeProps NodeMerge NodeMergeProps NodeMatchModel NodeMatchSpec NodeMatchProofs.
Open Scope Z_scope.

Section Aux.
  Context {K : Type} {KE : EqDecision K} {KC : Countable K} (H : list Z -> dig).
  Lemma run_app (s : matches (K := K)) (ops1 ops2 : list (mop K)) : run_ops H s (ops1 ++ ops2) = match run_ops H s ops1 with Some s' => run_ops H s' ops2 | None => None end.
  Proof. revert s. induction ops1 as [|[k e|k] ops1 IH]; intros s; cbn; auto. destruct (ready_tx (K := K) H s k); auto. Qed.
  Lemma run_ingests (k : K) bs : forall s : matches (K := K), bs <> [] -> exists o, run_ops H s (map (MIngest k) bs) = Some (Mt o (mt_ready s)) /\
    o !! k = Some (fold_left (acc_one H) (concat bs) (default ∅ (mt_ongoing s !! k))).
  Proof.
    induction bs as [|b bs IH]; intros s N; [done|]. cbn [map run_ops]. destruct bs as [|b' bs].
    - cbn. eexists. split; [reflexivity|]. rewrite app_nil_r. apply lookup_insert.
    - destruct (IH (ingest_events H s k b)) as (o & E1 & E2); [done|]. exists o. split; [exact E1|]. rewrite E2. cbn [ingest_events mt_ongoing]. rewrite lookup_insert. cbn [default].
      f_equal. symmetry. exact (fold_left_app (acc_one H) b (concat (b' :: bs)) _).
  Qed.
  (** the value of [finalize] when the collected hashes are those of a tree's leaves *)
  Lemma finalize_tree {E} (s : matches (K := K)) (l : list (dig * Z * E)) t : addr_range ev_ad l -> ETree H l t -> few (map addr_hash l) ->
    (forall a, mt_ready s !! a = comb H (hashes_at a (map addr_hash l))) -> fst (mt_finalize H 65 s) = Some (en_hash t).
  Proof.
    intros R T F A. pose proof (ETree_Trie H l t T) as Tr.
    pose proof (finalize_root H l (mt_ready s) R (Trie_sorted _ _ _ Tr) A F _ Tr) as V. unfold mt_finalize. cbn [fst].
    destruct (by_address add1 _ 65 _) as [[[q d]|]|]; try done. cbn in V. rewrite (ETree_root H l t T). congruence.
  Qed.

  (** *** when no address occurs twice *)
  Lemma hashes_one (evs : list (Z * dig)) a : List.NoDup (map fst evs) ->
    (exists e, hashes_at a evs = [e] /\ (a, e) ∈ evs /\ forall e', (a, e') ∈ evs -> e' = e) \/ (hashes_at a evs = [] /\ forall e, (a, e) ∉ evs).
  Proof.
    induction evs as [|[b e] evs IH]; intros N; [right; split; [auto|set_solver]|]. cbn in N. inversion N as [|? ? Nb N']; subst.
    specialize (IH N'). unfold hashes_at in *. rewrite !list.filter_cons. cbn [fst]. destruct (decide (b = a)) as [->|Nq].
    - left. exists e. destruct IH as [(e' & _ & I & _)|(Z0 & I)].
      + exfalso. apply Nb. apply in_map_iff. exists (a, e'). split; [auto|]. apply elem_of_list_In. auto.
      + cbn. rewrite Z0. split; [auto|]. split; [set_solver|]. intros e' Ie. apply elem_of_cons in Ie as [[= ->]|Ie]; [auto|]. exfalso. eapply I; eauto.
    - destruct IH as [(e' & Ee & I & U)|(Z0 & I)].
      + left. exists e'. split; [auto|]. split; [set_solver|]. intros e'' Ie. apply elem_of_cons in Ie as [[= -> ->]|Ie]; [done|auto].
      + right. split; [auto|]. intros e' Ie. apply elem_of_cons in Ie as [[= -> ->]|Ie]; [done|]. eapply I; eauto.
  Qed.
  Lemma comb_one (evs : list (Z * dig)) : List.NoDup (map fst evs) -> forall a d, comb H (hashes_at a evs) = Some d <-> (a, d) ∈ evs.
  Proof.
    intros N a d. destruct (hashes_one evs a N) as [(e & -> & I & U)|(-> & I)]; cbn; split.
    - intros [= <-]. auto.
    - intros Id. f_equal. symmetry. auto.
    - done.
    - intros Id. exfalso. eapply I; eauto.
  Qed.
  Definition held (s : matches (K := K)) (a : Z) (d : dig) : Prop := mt_ready s !! a = Some d \/ exists k m, mt_ongoing s !! k = Some m /\ m !! a = Some d.
  Record MInv (s : matches (K := K)) (I : list (Z * dig)) : Prop := {
    mi_held : forall a d, held s a d <-> (a, d) ∈ I;
    mi_ready : forall a k m d, mt_ongoing s !! k = Some m -> m !! a = Some d -> mt_ready s !! a = None;
    mi_one : forall a k k' m m' d d', mt_ongoing s !! k = Some m -> mt_ongoing s !! k' = Some m' -> m !! a = Some d -> m' !! a = Some d' -> k = k' }.
  Lemma MInv_ingest s I k evs : MInv s I -> List.NoDup (map fst (I ++ evs)) -> MInv (ingest_events H s k evs) (I ++ evs).
  Proof.
    intros [Hh Hr Ho] N. rewrite map_app in N. apply NoDup_ListNoDup, list.NoDup_app in N as (_ & Nd & N2). apply NoDup_ListNoDup in N2.
    set (m0 := default ∅ (mt_ongoing s !! k)).
    assert (Fresh : forall a d d', held s a d -> (a, d') ∈ evs -> False).
    { intros a d d' Hd Ie. apply Hh in Hd. apply (Nd a); apply elem_of_list_In, in_map_iff; [exists (a, d)|exists (a, d')]; (split; [auto|]); apply elem_of_list_In; auto. }
    assert (M0 : forall a d, m0 !! a = Some d -> exists m, mt_ongoing s !! k = Some m /\ m !! a = Some d).
    { intros a d E0. unfold m0 in E0. destruct (mt_ongoing s !! k) as [m|]; cbn in E0; [eauto|]. rewrite lookup_empty in E0. done. }
    assert (V : forall a d, fold_left (acc_one H) evs m0 !! a = Some d <-> m0 !! a = Some d \/ (a, d) ∈ evs).
    { intros a d. rewrite acc_all. destruct (m0 !! a) as [d0|] eqn:E0.
      - assert (Z0 : hashes_at a evs = []).
        { destruct (comb H (hashes_at a evs)) as [e|] eqn:Ec.
          - apply comb_one in Ec; auto. exfalso. destruct (M0 _ _ E0) as (m & E1 & E2). eapply (Fresh a d0 e); eauto. right. eauto.
          - destruct (hashes_at a evs); done. }
        rewrite Z0. cbn. split; [auto|]. intros [?|Ie]; [auto|]. exfalso. destruct (M0 _ _ E0) as (m & E1 & E2). eapply (Fresh a d0 d); eauto. right. eauto.
      - rewrite comb_one by auto. split; [auto|]. intros [?|?]; [done|auto]. }
    assert (L : forall k' m, mt_ongoing (ingest_events H s k evs) !! k' = Some m -> (k' = k /\ m = fold_left (acc_one H) evs m0) \/ (k' <> k /\ mt_ongoing s !! k' = Some m)).
    { intros k' m E1. cbn in E1. destruct (decide (k' = k)) as [->|Nk]; [rewrite lookup_insert in E1; injection E1 as <-; auto|rewrite lookup_insert_ne in E1 by auto; auto]. }
    split.
    - intros a d. rewrite elem_of_app, <- Hh. unfold held. split.
      + intros [Er|(k' & m & E1 & E2)]; [auto|]. apply L in E1 as [(-> & ->)|(Nk & E1)]; [|eauto 6]. apply V in E2 as [E2|E2]; [|auto]. apply M0 in E2. left. right. eauto.
      + assert (Lk : mt_ongoing (ingest_events H s k evs) !! k = Some (fold_left (acc_one H) evs m0)) by (cbn; apply lookup_insert).
        intros [[Er|(k' & m & E1 & E2)]|Ie]; [auto| |].
        * right. destruct (decide (k' = k)) as [->|Nk].
          -- exists k. eexists. split; [exact Lk|]. apply V. left. unfold m0. rewrite E1. auto.
          -- exists k', m. split; [cbn; rewrite lookup_insert_ne by auto; auto|auto].
        * right. exists k. eexists. split; [exact Lk|]. apply V. auto.
    - intros a k' m d E1 E2. cbn [ingest_events mt_ready]. apply L in E1 as [(-> & ->)|(Nk & E1)]; [|eauto]. apply V in E2 as [E2|E2].
      + apply M0 in E2 as (m & E1 & E2). eauto.
      + destruct (mt_ready s !! a) as [r|] eqn:Er; [|auto]. exfalso. eapply Fresh; eauto. left. eauto.
    - intros a k1 k2 m1 m2 e1 e2 E1 E2 A1 A2. apply L in E1 as [(-> & ->)|(Nk1 & E1)], E2 as [(-> & ->)|(Nk2 & E2)]; auto.
      + apply V in A1 as [A1|A1]; [apply M0 in A1 as (m & B1 & B2); eapply (Ho a k k2); eauto|]. exfalso. eapply Fresh; eauto. right. eauto.
      + apply V in A2 as [A2|A2]; [apply M0 in A2 as (m & B1 & B2); eapply (Ho a k1 k); eauto|]. exfalso. eapply Fresh; eauto. right. eauto.
      + eapply Ho; eauto.
  Qed.
  Lemma MInv_ready s s' I k : MInv s I -> ready_tx H s k = Some s' -> MInv s' I.
  Proof.
    intros [Hh Hr Ho] E0. unfold ready_tx in E0. destruct (mt_ongoing s !! k) as [acc|] eqn:Ek; [|done]. injection E0 as <-.
    assert (V : forall a d, union_with (fun r p => Some (f2to1 H r p)) (mt_ready s) acc !! a = Some d <-> mt_ready s !! a = Some d \/ acc !! a = Some d).
    { intros a d. rewrite lookup_union_with. destruct (acc !! a) as [p|] eqn:Ea.
      - rewrite (Hr a k acc p) by auto. cbn. split; [auto|]. intros [?|?]; [done|auto].
      - destruct (mt_ready s !! a); cbn; split; auto; intros [?|?]; done. }
    split; unfold held; cbn [mt_ready mt_ongoing].
    - intros a d. rewrite <- Hh. unfold held. rewrite V. split.
      + intros [[?|?]|(k' & m & E1 & E2)]; eauto. apply lookup_delete_Some in E1 as (_ & E1). eauto.
      + intros [?|(k' & m & E1 & E2)]; [auto|]. destruct (decide (k' = k)) as [->|Nk]; [left; right; congruence|]. right. exists k', m. rewrite lookup_delete_ne by auto. auto.
    - intros a k' m d E1 E2. apply lookup_delete_Some in E1 as (Nk & E1). destruct (union_with _ _ _ !! a) as [e|] eqn:Eu; [|auto]. apply V in Eu as [Eu|Eu].
      + rewrite (Hr a k' m d) in Eu; done.
      + exfalso. apply Nk. eapply (Ho a k k'); eauto.
    - intros a k1 k2 m1 m2 e1 e2 E1 E2. apply lookup_delete_Some in E1 as (_ & E1), E2 as (_ & E2). eauto.
  Qed.
  Lemma MInv_run ops : forall s s' I, MInv s I -> List.NoDup (map fst (I ++ ingested ops)) -> run_ops H s ops = Some s' -> MInv s' (I ++ ingested ops).
  Proof.
    induction ops as [|[k evs|k] ops IH]; intros s s' I V N Er; cbn in *.
    - injection Er as <-. rewrite app_nil_r. auto.
    - rewrite app_assoc. eapply IH; [| |exact Er]; [apply MInv_ingest; auto|rewrite <- app_assoc; auto]. rewrite app_assoc, map_app in N.
      apply NoDup_ListNoDup, list.NoDup_app in N as (N & _ & _). apply NoDup_ListNoDup. auto.
    - destruct (ready_tx H s k) as [s1|] eqn:E1; [|done]. eapply IH; [eapply MInv_ready; eauto|auto|exact Er].
  Qed.
End Aux.

(** The events of one transaction, in whatever batches and order they arrive - only events at one address keep their order, and
    there are at most three at each: the match proof's event root is that of the event tree. *)
Theorem C70_one_tx_partial : forall K `{Countable K} E H (s0 : matches (K := K)) k (bs : list (list (Z * dig))) (l : list (dig * Z * E)) t,
  mt_ready s0 = ∅ -> mt_ongoing s0 !! k = None -> bs <> [] ->
  ETree H l t -> addr_range ev_ad l ->
  (forall a, hashes_at a (concat bs) = hashes_at a (map addr_hash l)) -> (forall a, (length (hashes_at a (concat bs)) <= 3)%nat) ->
  exists s, run_ops H s0 (map (MIngest k) bs ++ [MReady k]) = Some s /\ fst (mt_finalize H 65 s) = Some (en_hash t).
Proof.
  intros K KE KC E H s0 k bs l t Er Eo N T R A F.
  destruct (run_ingests H k bs s0 N) as (o & E1 & E2). rewrite run_app, E1. cbn [run_ops ready_tx mt_ongoing]. unfold ready_tx. cbn [mt_ongoing mt_ready]. rewrite E2.
  eexists. split; [reflexivity|]. apply (finalize_tree H _ l); auto.
  - intros a. rewrite <- A. apply F.
  - intros a. cbn [mt_ready]. rewrite Er, Eo. rewrite lookup_union_with, lookup_empty, acc_all. cbn [default]. rewrite lookup_empty, A.
    destruct (comb _ _); auto.
Qed.
(** A block's match proof covers what became ready since the previous one: for a transaction whose events arrive partly before
    and partly after the proof of the previous block - whatever that block held - the next proof's event root is that of the
    transaction's whole event tree and of nothing else. *)
Theorem C70_next_block_partial : forall K `{Countable K} E H n (s0 s1 : matches (K := K)) k (bs bs' : list (list (Z * dig))) (l : list (dig * Z * E)) t,
  mt_ongoing s0 !! k = None -> bs <> [] -> bs' <> [] -> run_ops H s0 (map (MIngest k) bs) = Some s1 ->
  ETree H l t -> addr_range ev_ad l ->
  (forall a, hashes_at a (concat (bs ++ bs')) = hashes_at a (map addr_hash l)) -> (forall a, (length (hashes_at a (concat (bs ++ bs'))) <= 3)%nat) ->
  exists s, run_ops H (snd (mt_finalize H n s1)) (map (MIngest k) bs' ++ [MReady k]) = Some s /\ fst (mt_finalize H 65 s) = Some (en_hash t).
Proof.
  intros K KE KC E H n s0 s1 k bs bs' l t Eo N N' R1 T R A F.
  destruct (run_ingests H k bs s0 N) as (o & E1 & E2). rewrite E1 in R1. injection R1 as <-. unfold mt_finalize at 1. cbn [snd mt_ongoing].
  destruct (run_ingests H k bs' (Mt o ∅) N') as (o' & E3 & E4). cbn [mt_ongoing mt_ready] in E3, E4. rewrite run_app, E3. cbn [run_ops]. unfold ready_tx. cbn [mt_ongoing mt_ready]. rewrite E4.
  eexists. split; [reflexivity|]. apply (finalize_tree H _ l); auto.
  - intros a. rewrite <- A. apply F.
  - intros a. cbn [mt_ready]. rewrite E2, Eo. cbn [default]. unfold id. rewrite <- fold_left_app, <- concat_app. rewrite lookup_union_with, lookup_empty, acc_all, lookup_empty, A.
    destruct (comb _ _); auto.
Qed.
(** Transactions touching distinct addresses: however the calls are interleaved, once every transaction is ready the match
    proof's event root is the root of the merged event tree of all programs. *)
Theorem C70_distinct_partial : forall K `{Countable K} E H (ps : list (list (dig * Z * E))) t (ops : list (mop K)) s, (forall l, dig_ok (H l)) ->
  Forall (by_addr ev_ad) ps -> distinct_addrs (concat ps) -> ev_ok (concat ps) -> Merged H ps t ->
  ingested ops ≡ₚ map addr_hash (concat ps) -> run_ops H mt_new ops = Some s -> (forall k m, mt_ongoing s !! k = Some m -> m = ∅) ->
  fst (mt_finalize H 65 s) = Some (en_hash t).
Proof.
  intros K KE KC E H ps t ops s Hk So D O M Pi Er Eo.
  destruct (C69_order_partial E H ps ps t Hk So D O M) as (Pl & Bl & Et & _). set (l := leaves (tree_of t)) in *.
  assert (Nl : List.NoDup (map fst (map addr_hash l))). { rewrite map_map. cbn [addr_hash fst]. eapply distinct_perm; [symmetry; exact Pl|auto]. }
  assert (Ol : ev_ok l) by (eapply ev_ok_perm; [symmetry; exact Pl|auto]).
  assert (Rl : addr_range ev_ad l). { unfold addr_range. eapply Forall_impl; [|exact Ol]. cbn. intros x (? & _). lia. }
  assert (Pn : ingested ops ≡ₚ map addr_hash l) by (rewrite Pi, Pl; auto).
  assert (Ni : List.NoDup (map fst (ingested ops))). { apply NoDup_ListNoDup. rewrite Pn. apply NoDup_ListNoDup. auto. }
  assert (V : MInv s (ingested ops)).
  { apply (MInv_run H ops mt_new s []); auto. split; cbn.
    - intros a d. unfold held. cbn. split; [|set_solver]. intros [C|(k & m & C & _)]; rewrite lookup_empty in C; done.
    - intros a k m d C. rewrite lookup_empty in C. done.
    - intros a k k' m m' d d' C. rewrite lookup_empty in C. done. }
  assert (T : ETree H l t). { destruct (C66_event_tree E H l 65 ltac:(lia)) as (t' & Et' & _ & _ & S); [intros Z0; unfold l in Z0; eapply leaves_nonempty; eauto|auto|].
    rewrite Et in Et'. injection Et' as <-. apply S. auto. }
  apply (finalize_tree H s l); auto.
  - intros a. destruct (hashes_one _ a Nl) as [(d & -> & _)|(-> & _)]; cbn; lia.
  - intros a. apply option_eq. intros d. rewrite comb_one by auto. rewrite <- Pn, <- (mi_held _ _ V). unfold held. split; [auto|].
    intros [?|(k & m & E1 & E2)]; [auto|]. rewrite (Eo _ _ E1), lookup_empty in E2. done.
Qed.
(** Four events of one program at one address: the transaction proof combines them as a balanced tree, the match proof one by
    one. The two roots agree only if the hash has a collision or maps some pair to its own second half. *)
Theorem C70_four_events_refuted : forall K `{Countable K} E H (k : K) a (h1 h2 h3 h4 : dig) (e : E), 0 <= a < 2 ^ 64 ->
  exists s d t, run_ops H mt_new [MIngest k [(a, h1); (a, h2); (a, h3); (a, h4)]; MReady k] = Some s /\ fst (mt_finalize H 65 s) = Some d /\
    event_tree H 65 [(h1, a, e); (h2, a, e); (h3, a, e); (h4, a, e)] = Some (Some t) /\
    (d = en_hash t -> (exists x y, x <> y /\ H x = H y) \/ (exists u v, f2to1 H u v = v)).
Proof.
  intros K KE KC E H k a h1 h2 h3 h4 e Ba. cbn [run_ops]. unfold ready_tx, ingest_events. cbn [mt_ongoing mt_ready mt_new]. rewrite lookup_insert.
  eexists _, _, _. split; [reflexivity|]. unfold mt_finalize. cbn [mt_ready fst]. rewrite lookup_empty. cbn [default].
  set (m := union_with _ _ _).
  assert (Em : in_order m = [(a, f2to1 H (f2to1 H (f2to1 H h1 h2) h3) h4)]).
  { assert (Es : m = {[a := f2to1 H (f2to1 H (f2to1 H h1 h2) h3) h4]}).
    { apply map_eq. intros b. unfold m. rewrite lookup_union_with, lookup_empty. rewrite acc_all, lookup_empty. unfold hashes_at. rewrite !list.filter_cons. cbn [fst].
      destruct (decide (a = b)) as [->|Nb]; [rewrite lookup_singleton|rewrite lookup_singleton_ne by auto]; reflexivity. }
    unfold in_order. rewrite Es, map_to_list_singleton. reflexivity. }
  rewrite Em. split; [reflexivity|]. split.
  { unfold event_tree. cbn [map by_address by_step chunks]. unfold by_step. cbn [chunks]. rewrite !decide_True by auto. reflexivity. }
  cbn [en_hash]. unfold f2to1 at 1 5. intros C.
  destruct (decide (delems (f2to1 H (f2to1 H h1 h2) h3) ++ delems h4 = delems (f2to1 H h1 h2) ++ delems (f2to1 H h3 h4))) as [Eq|Ne]; [|left; eauto].
  right. exists h3, h4. apply app_inj_1 in Eq as (_ & Eq); [|reflexivity]. symmetry. destruct h4, (f2to1 H h3 _) eqn:Q. unfold delems in Eq. cbn in Eq. congruence.
Qed.
(** Two programs of one transaction with an event each at the same address, the second ingested first. *)
Theorem C70_order_refuted : forall K `{Countable K} E H (k : K) a (h1 h2 : dig) (e : E), 0 <= a < 2 ^ 64 ->
  exists s d p t, run_ops H mt_new [MIngest k [(a, h2)]; MIngest k [(a, h1)]; MReady k] = Some s /\ fst (mt_finalize H 65 s) = Some d /\
    merge_events H 2 (EvL h1 a e) (EvL h2 a e) = Some (p, t) /\
    (d = en_hash t -> (exists x y, x <> y /\ H x = H y) \/ h1 = h2).
Proof.
  intros K KE KC E H k a h1 h2 e Ba. cbn [run_ops]. unfold ready_tx, ingest_events. cbn [mt_ongoing mt_ready mt_new]. rewrite !lookup_insert.
  eexists _, _, _, _. split; [reflexivity|]. unfold mt_finalize. cbn [mt_ready fst]. rewrite !lookup_empty. cbn [default].
  set (m := union_with _ _ _).
  assert (Em : in_order m = [(a, f2to1 H h2 h1)]).
  { assert (Es : m = {[a := f2to1 H h2 h1]}).
    { apply map_eq. intros b. unfold m, id. rewrite lookup_union_with, !acc_all, !lookup_empty. unfold hashes_at. rewrite !list.filter_cons. cbn [fst].
      destruct (decide (a = b)) as [->|Nb]; [rewrite lookup_singleton|rewrite lookup_singleton_ne by auto]; reflexivity. }
    unfold in_order. rewrite Es, map_to_list_singleton. reflexivity. }
  rewrite Em. split; [reflexivity|].
  assert (G : compare (base a) (base a) = Some Equal) by (unfold compare; cbn [base ba_h ba_a]; rewrite Z.eqb_refl, !Z.compare_refl; auto).
  cbn [merge_events en_addr]. rewrite G. unfold simple_merge. cbn [en_addr].
  assert (Ca : common_ancestor (base a) (base a) = Some (base a)).
  { unfold common_ancestor, parent. cbn [base ba_h ba_a]. change (Z.max 0 (0 - 0)) with 0. change (0 <? 64) with true. cbv iota. cbn [ba_h ba_a].
    rewrite Z.shiftr_0_r, Z.lxor_nilpotent. change (bitlen 0) with 0. change (0 <? 64) with true. cbv iota. rewrite Z.shiftr_0_r, bool_decide_eq_true_2 by auto. auto. }
  rewrite Ca, leaf_both. cbn [en_hash mg_m]. rewrite bool_decide_eq_true_2 by auto. split; [reflexivity|].
  cbn [en_hash]. unfold f2to1. intros C. destruct (decide (delems h2 ++ delems h1 = delems h1 ++ delems h2)) as [Eq|Ne]; [|left; eauto].
  right. destruct h1, h2. cbn in Eq. congruence.
Qed.
(** a transaction over two blocks; the previous block held another one *)
Example C70_next_block_example : exists s0 s1 t s, s0 = snd (mt_finalize c66_toy 65 (Mt (∅ : gmap nat (gmap Z dig)) (<[4 := c66_h 9]> ∅))) /\ ETree c66_toy [c69_ev 1; c69_ev 6] t /\
  run_ops c66_toy s0 (map (MIngest 1%nat) [[addr_hash (c69_ev 6)]]) = Some s1 /\
  run_ops c66_toy (snd (mt_finalize c66_toy 65 s1)) (map (MIngest 1%nat) [[addr_hash (c69_ev 1)]] ++ [MReady 1%nat]) = Some s /\ fst (mt_finalize c66_toy 65 s) = Some (en_hash t).
Proof.
  assert (R : addr_range ev_ad [c69_ev 1; c69_ev 6]) by (repeat constructor; cbn; lia).
  destruct (C66_event_tree unit c66_toy [c69_ev 1; c69_ev 6] 65 ltac:(lia)) as (t & _ & _ & _ & S); [done|exact R|].
  assert (T : ETree c66_toy [c69_ev 1; c69_ev 6] t). { apply S. destruct C69_example_hyps as (B & _). inversion B; auto. }
  set (s0 := snd (mt_finalize c66_toy 65 (Mt (∅ : gmap nat (gmap Z dig)) (<[4 := c66_h 9]> ∅)))).
  destruct (run_ingests c66_toy 1%nat [[addr_hash (c69_ev 6)]] s0) as (o & Eo & _); [discriminate|]. exists s0, (Mt o (mt_ready s0)), t.
  destruct (C70_next_block_partial nat unit c66_toy 65 s0 (Mt o (mt_ready s0)) 1%nat [[addr_hash (c69_ev 6)]] [[addr_hash (c69_ev 1)]] [c69_ev 1; c69_ev 6] t) as (s & R1 & R2); [reflexivity|discriminate|discriminate|exact Eo|exact T|exact R| | |].
  - intros a. unfold hashes_at. cbn. repeat (rewrite list.filter_cons; cbn). destruct (decide (6 = a)), (decide (1 = a)); try lia; reflexivity.
  - intros a. unfold hashes_at. etransitivity; [rewrite map_length; apply list.filter_length|]. cbn. lia.
  - exists s. split; [reflexivity|]. split; [exact T|]. split; [exact Eo|]. split; [exact R1|exact R2].
Qed.
(** two transactions, interleaved calls *)
Definition c70_ops : list (mop nat) :=
  [MIngest 1%nat (map addr_hash [c69_ev 6; c69_ev 1]); MIngest 2%nat [addr_hash (c69_ev 4)]; MReady 2%nat;
   MIngest 1%nat (map addr_hash [c69_ev 0; c69_ev 7]); MReady 1%nat].
Example C70_example : exists s t, Merged c66_toy [[c69_ev 1; c69_ev 6]; [c69_ev 4]; [c69_ev 0; c69_ev 7]] t /\
  run_ops c66_toy mt_new c70_ops = Some s /\ mt_ongoing s = ∅ /\ fst (mt_finalize c66_toy 65 s) = Some (en_hash t).
Proof.
  destruct C69_example_hyps as (Y1 & Y2 & Y3 & Y4). destruct C69_example as (t & M & _).
  eexists _, t. split; [exact M|]. split; [reflexivity|]. match goal with |- mt_ongoing ?s = _ /\ _ => set (st := s) end.
  assert (Z0 : mt_ongoing st = ∅).
  { unfold st. cbn [mt_ongoing ingest_events]. rewrite !delete_insert_delete. rewrite (delete_commute _ 1%nat 2%nat), !delete_insert_delete. cbn [mt_ongoing mt_new]. rewrite !delete_empty. auto. }
  split; [exact Z0|]. eapply (C70_distinct_partial nat unit c66_toy _ t c70_ops st); eauto; [|intros k m El; rewrite Z0, lookup_empty in El; done].
  cbn. solve_Permutation.
Qed.

Print Assumptions C70_one_tx_partial.
Print Assumptions C70_next_block_partial.
Print Assumptions C70_distinct_partial.
Print Assumptions C70_four_events_refuted.
Print Assumptions C70_order_refuted.
