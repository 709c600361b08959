(** C69: merging the event trees of programs (node/src/block_proposer/transactions.rs). *)
From stdpp Require Import prelude sorting.
From Verif Require Import Field RecModel RecSpec NodeTreeModel NodeTreeSpec NodeTreeProofs NodeAddr NodeTreeSdk NodeTreeProps NodeMerge.
Open Scope Z_scope.

(** Two event trees with at most one event per address each: the merge succeeds, gives the tree of the merged events, and the
    proof states the two roots and the root of the result. *)
Theorem C69_merge_partial : forall E H (l1 l2 : list (dig * Z * E)) t1 t2, (forall l, dig_ok (H l)) ->
  ETree H l1 t1 -> ETree H l2 t2 -> distinct_addrs l1 -> distinct_addrs l2 -> ev_ok l1 -> ev_ok l2 ->
  forall fuel, (esize t1 + esize t2 <= fuel)%nat ->
  exists p t, merge_events H fuel t1 t2 = Some (p, t) /\ ETree H (smerge ev_ad l1 l2) t /\ merge_states p (en_hash t1) (en_hash t2) (en_hash t).
Proof.
  intros E H l1 l2 t1 t2 Hk T1 T2 D1 D2 O1 O2 fuel L.
  destruct (merge_ok H Hk fuel l1 l2 t1 t2) as (p & t & Em & M & S); auto using ETree_STree.
  exists p, t. split; [auto|]. split; [|auto]. apply MTree_ETree. auto.
Qed.
(** the merged list is what its name says: all events of both, ordered by address when both lists are *)
Theorem C69_merged_list : forall A (addr : A -> Z) l1 l2, by_addr addr l1 -> by_addr addr l2 ->
  smerge addr l1 l2 ≡ₚ l1 ++ l2 /\ by_addr addr (smerge addr l1 l2).
Proof.
  intros A addr l1 l2 B1 B2. split; [apply sm_perm|].
  assert (SS : forall l, by_addr addr l -> StronglySorted (fun x y => addr x <= addr y) l).
  { induction l as [|x l IH]; intros B; [constructor|]. constructor; [apply IH; intros i j u v L Eu Ev; apply (B (S i) (S j)); [lia|auto|auto]|].
    apply List.Forall_forall. intros y Iy. apply elem_of_list_In, elem_of_list_lookup in Iy as (j & Ej). apply (B 0%nat (S j)); [lia|auto|auto]. }
  assert (SB : forall l, StronglySorted (fun x y => addr x <= addr y) l -> by_addr addr l).
  { induction 1 as [|x l S IH F]; intros i j u v L Eu Ev; [done|]. destruct i as [|i], j as [|j]; try lia; cbn in Eu, Ev.
    - injection Eu as <-. rewrite List.Forall_forall in F. apply elem_of_list_lookup_2, elem_of_list_In in Ev. apply (F v Ev).
    - apply (IH i j); auto. lia. }
  apply SB. apply SS in B1, B2. clear SS SB. revert l2 B2. induction B1 as [|x l1 S1 IH1 F1]; intros l2 B2; [rewrite sm_nil_l; auto|].
  induction B2 as [|y l2 S2 IH2 F2]; [rewrite sm_nil_r; constructor; auto|]. rewrite sm_cons. destruct (Z.leb_spec (addr x) (addr y)) as [L|L].
  - constructor; [apply IH1; constructor; auto|]. apply sm_Forall; [auto|]. constructor; [auto|]. eapply Forall_impl; [|exact F2]. cbn. intros; lia.
  - constructor; [apply IH2|]. apply sm_Forall; [|auto]. constructor; [lia|]. eapply Forall_impl; [|exact F1]. cbn. intros; lia.
Qed.
Lemma dzero_ok : dig_ok dzero.
Proof. repeat split; vm_compute; congruence. Qed.
(** a transaction step: either side may have no events *)
Theorem C69_branch_partial : forall E H (l1 l2 : list (dig * Z * E)) (o1 o2 : option (enode E)), (forall l, dig_ok (H l)) ->
  (match o1 with Some t => ETree H l1 t | None => l1 = [] end) -> (match o2 with Some t => ETree H l2 t | None => l2 = [] end) ->
  distinct_addrs l1 -> distinct_addrs l2 -> ev_ok l1 -> ev_ok l2 ->
  exists p o, merge_branch H o1 o2 = Some (p, o) /\ (match o with Some t => ETree H (smerge ev_ad l1 l2) t | None => smerge ev_ad l1 l2 = [] end) /\
    merge_states_opt p o1 o2 o.
Proof.
  intros E H l1 l2 o1 o2 Hk T1 T2 D1 D2 O1 O2. 
  assert (OK : forall (l : list (dig * Z * E)) t, ETree H l t -> distinct_addrs l -> ev_ok l -> dig_ok (en_hash t)) by (intros; eapply STree_hash; eauto; eapply ETree_STree; eauto).
  destruct o1 as [t1|], o2 as [t2|]; cbn [merge_branch].
  - destruct (C69_merge_partial E H l1 l2 t1 t2 Hk T1 T2 D1 D2 O1 O2 (esize t1 + esize t2) ltac:(lia)) as (p & t & -> & T & S).
    eexists _, _. split; [reflexivity|]. split; [exact T|]. unfold merge_states_opt. cbn [present tree_digest]. red in S.
    assert (W : mg_branch_prove H p (mg_leaf_prove H None None) = MgPi true (en_hash t1) true (en_hash t2) true (en_hash t)).
    { rewrite S. unfold mg_branch_prove, mg_leaf_prove. cbn [mg_m mg_ap mg_a mg_bp mg_b mg_mp orb hofw andb odig].
      rewrite !(dadd0_r dzero) by apply dzero_ok. rewrite !dadd0_r; eauto.
      eapply ETree_hash; eauto. apply sm_Forall; auto. }
    rewrite W, S. repeat case_match; reflexivity.
  - subst l2. rewrite sm_nil_r. eexists _, _. split; [reflexivity|]. split; [exact T1|]. unfold merge_states_opt. cbn [present tree_digest].
    rewrite leaf_left by eauto. unfold mg_branch_prove, mg_leaf_prove. cbn [mg_m mg_ap mg_a mg_bp mg_b mg_mp orb hofw andb odig]. 
    rewrite !(dadd0_r dzero) by apply dzero_ok. rewrite !dadd0_r; eauto using dzero_ok.
  - subst l1. rewrite sm_nil_l. eexists _, _. split; [reflexivity|]. split; [exact T2|]. unfold merge_states_opt. cbn [present tree_digest].
    rewrite leaf_right by eauto. unfold mg_branch_prove, mg_leaf_prove. cbn [mg_m mg_ap mg_a mg_bp mg_b mg_mp orb hofw andb odig]. 
    rewrite !(dadd0_r dzero) by apply dzero_ok. rewrite !dadd0_r; eauto using dzero_ok.
  - subst. eexists _, _. split; [reflexivity|]. split; [reflexivity|]. reflexivity.
Qed.

(** ** Order independence *)
Section Order.
  Context {E : Type} (H : list Z -> dig).
  Hypothesis H_ok : forall l, dig_ok (H l).
  Notation ev := (dig * Z * E)%type.
  Lemma merged_stree ps t : Merged H ps t -> Forall (by_addr ev_ad) ps -> distinct_addrs (concat ps) -> ev_ok (concat ps) ->
    exists l, STree H l t /\ l ≡ₚ concat (A := ev) ps.
  Proof.
    induction 1 as [l t Et|ps1 ps2 t1 t2 p t M1 IH1 M2 IH2 Em]; intros So D O.
    - cbn in *. rewrite app_nil_r in *. inversion So as [|? ? S _]; subst. exists l. split; [|auto].
      assert (R : addr_range ev_ad l). { unfold addr_range. eapply Forall_impl; [|exact O]. cbn. intros x (? & _). lia. }
      assert (N : l <> []) by (intros ->; done).
      apply ETree_STree; auto. apply event_sorted; auto.
    - rewrite concat_app in *. apply List.Forall_app in So as (So1 & So2). apply List.Forall_app in O as (O1 & O2).
      pose proof D as D'. unfold distinct_addrs in D. rewrite map_app in D. apply NoDup_ListNoDup, NoDup_app in D as (D1 & _ & D2). apply NoDup_ListNoDup in D1, D2.
      destruct (IH1 So1 D1 O1) as (l1 & T1 & P1). destruct (IH2 So2 D2 O2) as (l2 & T2 & P2).
      destruct (merge_ok H H_ok (esize t1 + esize t2) l1 l2 t1 t2 T1 T2 ltac:(lia)) as (p' & t' & Em' & M & _). rewrite Em in Em'. injection Em' as <- <-.
      assert (Pm : smerge ev_ad l1 l2 ≡ₚ concat ps1 ++ concat ps2) by (rewrite sm_perm, P1, P2; auto).
      exists (smerge ev_ad l1 l2). split; [|auto]. apply ETree_STree; [apply MTree_ETree; auto| |].
      + eapply distinct_perm; [symmetry; exact Pm|auto].
      + eapply ev_ok_perm; [symmetry; exact Pm|apply List.Forall_app; auto].
  Qed.
End Order.
(** When all events of all programs have distinct addresses: any two mergeable groups can be merged, and however the programs
    are ordered and grouped the result is the same, namely the tree of all events in address order. *)
Theorem C69_order_partial : forall E H (ps ps' : list (list (dig * Z * E))) t, (forall l, dig_ok (H l)) ->
  Forall (by_addr ev_ad) ps -> distinct_addrs (concat ps) -> ev_ok (concat ps) -> Merged H ps t ->
  leaves (tree_of t) ≡ₚ concat ps /\ by_addr ev_ad (leaves (tree_of t)) /\ event_tree H 65 (leaves (tree_of t)) = Some (Some t) /\
  (forall t', ps ≡ₚ ps' -> Merged H ps' t' -> t' = t) /\
  (forall ps2 t2, distinct_addrs (concat (ps ++ ps2)) -> Forall (by_addr ev_ad) ps2 -> ev_ok (concat ps2) -> Merged H ps2 t2 -> exists t', Merged H (ps ++ ps2) t').
Proof.
  intros E H ps ps' t Hk So D O M. destruct (merged_stree H Hk ps t M So D O) as (l & T & P). rewrite (STree_leaves _ _ _ T).
  pose proof (STree_sorted H Hk _ _ T) as Ss. split; [auto|]. split; [apply sorted_by_addr; auto|]. split; [|split].
  - destruct (STree_nonempty _ _ _ T) as (x & r & El).
    destruct (C66_event_tree E H l 65 ltac:(lia)) as (t' & Et & _ & _ & S); [subst; done| |].
    + unfold addr_range. eapply Forall_impl; [|exact (STree_small _ _ _ T)]. cbn. intros v Rv. lia.
    + destruct S as (S & _); [apply sorted_by_addr; auto|]. rewrite Et. do 2 f_equal. symmetry. eapply STree_unique; [exact T|]. apply ETree_STree; auto.
      * eapply distinct_perm; [symmetry; exact P|auto]. 
      * eapply ev_ok_perm; [symmetry; exact P|auto].
  - intros t' Pp M'. 
    assert (Pc : concat ps' ≡ₚ concat ps) by (rewrite Pp; auto).
    destruct (merged_stree H Hk ps' t' M') as (l' & T' & P'); [rewrite <- Pp; auto|eapply distinct_perm; [symmetry; exact Pc|auto]|eapply ev_ok_perm; [symmetry; exact Pc|auto]|].
    assert (El : l' = l).
    { assert (As : AntiSymm (=) (fun x y : dig * Z * E => ev_ad x < ev_ad y)) by (intros x y ? ?; lia).
      apply (@StronglySorted_unique _ (fun x y : dig * Z * E => ev_ad x < ev_ad y) As); [eapply STree_sorted; eauto|auto|]. rewrite P, P', Pc. auto. }
    subst l'. symmetry. eapply STree_unique; eauto.
  - intros ps2 t2 D2 So2 O2 M2. rewrite concat_app in D2. pose proof D2 as D2'. unfold distinct_addrs in D2. rewrite map_app in D2. apply NoDup_ListNoDup, NoDup_app in D2 as (_ & _ & D2). apply NoDup_ListNoDup in D2.
    destruct (merged_stree H Hk ps2 t2 M2 So2 D2 O2) as (l2 & T2 & P2).
    destruct (merge_ok H Hk (esize t + esize t2) l l2 t t2 T T2 ltac:(lia)) as (p & t' & Em & _ & _). exists t'. eapply MTwo; eauto.
Qed.
(** Two events of one program at one address, and another program's event there or at the neighbouring address: the node
    panics (the comparison falls into an unreachable! arm). *)
Theorem C69_merge_refuted : forall E H (h1 h2 h3 : dig) (e1 e2 e3 : E) a c fuel, 0 <= a < 2 ^ 64 -> 0 <= c < 2 ^ 64 -> c / 2 = a / 2 ->
  exists t, event_tree H 65 [(h1, a, e1); (h2, a, e2)] = Some (Some t) /\ merge_events H fuel t (EvL h3 c e3) = None /\ merge_events H fuel (EvL h3 c e3) t = None.
Proof.
  intros E H h1 h2 h3 e1 e2 e3 a c fuel Ba Bc Q. exists (EvB (base a) (f2to1 H h1 h2) (EvL h1 a e1) (EvL h2 a e2)). split.
  - unfold event_tree. cbn [map by_address by_step chunks]. unfold by_step. cbn [chunks]. rewrite decide_True by auto. reflexivity.
  - cbn [en_addr]. destruct fuel; [auto|]. cbn [merge_events en_addr].
    assert (B : ba_ok (base a) /\ ba_ok (base c)) by (unfold ba_ok; cbn; lia). destruct B as (B1 & B2).
    assert (G : forall u v : Z, u / 2 = v / 2 -> 0 <= u < 2 ^ 64 -> 0 <= v < 2 ^ 64 -> compare (base u) (base v) = Some Equal \/ compare (base u) (base v) = Some LeftSibling \/ compare (base u) (base v) = Some RightSibling).
    { clear. intros u v Q Bu Bv. unfold compare. cbn [base ba_h ba_a]. rewrite Z.eqb_refl. rewrite !Z.shiftr_div_pow2 by lia. rewrite Z.pow_1_r, Q, Z.compare_refl. destruct (_ ?= _); auto. }
    split.
    + destruct (G a c ltac:(congruence) Ba Bc) as [->|[->| ->]]; auto.
    + destruct (G c a ltac:(congruence) Bc Ba) as [->|[->| ->]]; auto.
Qed.
(** Likewise three programs with one event each at the same address. *)
Theorem C69_third_program_refuted : forall E H (h1 h2 h3 : dig) (e1 e2 e3 : E) a fuel, 0 <= a < 2 ^ 64 ->
  exists p t, merge_events H 2 (EvL h1 a e1) (EvL h2 a e2) = Some (p, t) /\ merge_events H fuel t (EvL h3 a e3) = None.
Proof.
  intros E H h1 h2 h3 e1 e2 e3 a fuel Ba.
  assert (G : compare (base a) (base a) = Some Equal) by (unfold compare; cbn [base ba_h ba_a]; rewrite Z.eqb_refl, !Z.compare_refl; auto).
  cbn [merge_events en_addr]. rewrite G. unfold simple_merge. cbn [en_addr].
  assert (Ca : common_ancestor (base a) (base a) = Some (base a)).
  { unfold common_ancestor, parent. cbn [base ba_h ba_a]. change (Z.max 0 (0 - 0)) with 0. change (0 <? 64) with true. cbv iota. cbn [ba_h ba_a].
    rewrite Z.shiftr_0_r, Z.lxor_nilpotent. change (bitlen 0) with 0. change (0 <? 64) with true. cbv iota. rewrite Z.shiftr_0_r, bool_decide_eq_true_2 by auto. auto. }
  rewrite Ca, leaf_both. cbn [en_hash mg_m]. rewrite bool_decide_eq_true_2 by auto. eexists _, _. split; [reflexivity|].
  destruct fuel; [auto|]. cbn [merge_events en_addr]. rewrite G. auto.
Qed.
(** three programs, interleaved addresses *)
Definition c69_ev (a : Z) : dig * Z * unit := (c66_h (a + 100), a, tt).
Example C69_example : exists t, Merged c66_toy [[c69_ev 1; c69_ev 6]; [c69_ev 4]; [c69_ev 0; c69_ev 7]] t /\
  leaves (tree_of t) = map c69_ev [0; 1; 4; 6; 7].
Proof.
  eexists. split.
  - eapply (MTwo c66_toy [[c69_ev 1; c69_ev 6]; [c69_ev 4]] [[c69_ev 0; c69_ev 7]]).
    + eapply (MTwo c66_toy [[c69_ev 1; c69_ev 6]] [[c69_ev 4]]); [apply MOne; reflexivity|apply MOne; reflexivity|reflexivity].
    + apply MOne; reflexivity.
    + reflexivity.
  - reflexivity.
Qed.
Example C69_example_hyps : Forall (by_addr ev_ad) [[c69_ev 1; c69_ev 6]; [c69_ev 4]; [c69_ev 0; c69_ev 7]] /\
  distinct_addrs (concat [[c69_ev 1; c69_ev 6]; [c69_ev 4]; [c69_ev 0; c69_ev 7]]) /\ ev_ok (concat [[c69_ev 1; c69_ev 6]; [c69_ev 4]; [c69_ev 0; c69_ev 7]]) /\
  forall l, dig_ok (c66_toy l).
Proof.
  split; [|split; [|split]].
  - repeat constructor; intros [|[|i]] [|[|j]] x y L Ex Ey; cbn in Ex, Ey; try done; try lia; injection Ex as <-; injection Ey as <-; cbn; lia.
  - unfold distinct_addrs. cbn. repeat constructor; cbn; intuition lia.
  - unfold ev_ok, dig_ok, canon. cbn. repeat (constructor; [cbn; repeat split; try lia; vm_compute; congruence|]). constructor.
  - intros l. unfold dig_ok, c66_toy, canon. cbn [d0 d1 d2 d3]. assert (0 < P) by (vm_compute; auto). split; [|repeat split; lia].
    assert (G : forall l a, 0 <= a < P -> 0 <= fold_left (fun a x => (3 * a + x + 1) mod P) l a < P).
    { induction l0 as [|x r IH]; intros a Ba; [auto|]. cbn [fold_left]. apply IH. apply Z.mod_pos_bound. auto. }
    apply G. vm_compute. split; congruence.
Qed.

Print Assumptions C69_merge_partial.
Print Assumptions C69_merged_list.
Print Assumptions C69_branch_partial.
Print Assumptions C69_order_partial.
Print Assumptions C69_merge_refuted.
Print Assumptions C69_third_program_refuted.
