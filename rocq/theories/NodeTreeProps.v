(** C65-C68: the block proposer's trees (node/src/block_proposer.rs, transactions.rs) against NodeTreeSpec.v. *)
From stdpp Require Import prelude.
From Verif Require Import Field Word RecModel SdkModel SdkSpec MerkleProofs EventProofs SdkProps NodeTreeModel NodeTreeSpec NodeTreeProofs NodeTreeSdk NodeAddr NodeCast.
Open Scope Z_scope.

(** ** C65: combining a list in a tree *)
Theorem C65_balanced : forall {T} (merge : T -> T -> T) (l : list T),
  (reduce_tree merge l = None <-> l = []) /\ (forall x, reduce_tree merge l = Some x <-> Rounds merge l x).
Proof.
  intros T merge l. destruct l as [|a l].
  - split; [split; auto|]. intros x. split; [done|inversion 1].
  - destruct (reduce_tree_rounds merge (a :: l)) as (y & E & R); [done|]. rewrite E. split; [split; done|].
    intros x. split; [intros [= <-]; auto|]. intros R'. f_equal. eapply Rd_fun; eauto.
Qed.
(** the cast root under which the node files a transaction's programs is the SDK's cast commitment *)
Lemma cast_leaves_at cl : forall i x, cast_leaves cl !! i = Some x -> fst x = Z.of_nat i.
Proof.
  intros i x E. unfold cast_leaves in E.
  assert (E1 : map fst (combine (map Z.of_nat (seq 0 (length cl))) cl) !! i = Some (fst x)).
  { change (map fst) with (fmap (M := list) (@fst Z digest)). rewrite list_lookup_fmap, E. auto. }
  rewrite combine_map_fst in E1 by (rewrite map_length, seq_length; auto).
  change (map Z.of_nat) with (fmap (M := list) Z.of_nat) in E1.
  rewrite list_lookup_fmap in E1. destruct (seq 0 (length cl) !! i) as [k|] eqn:Ek; [|discriminate].
  apply lookup_seq in Ek as (-> & ?). cbn in E1. injection E1 as <-. auto.
Qed.
Lemma cast_leaves_snd cl : map snd (cast_leaves cl) = cl.
Proof. unfold cast_leaves. apply combine_map_snd. rewrite map_length, seq_length. auto. Qed.

Theorem C65_cast_root : forall H checks fuel cl d, (length cl < fuel)%nat -> Z.of_nat (length cl) < 2 ^ 63 ->
  reduce_tree (two_to_one H) cl = Some d -> merkleize H checks fuel (cast_leaves cl) = Done d.
Proof.
  intros H checks fuel cl d Lfu L E. apply C65_balanced in E.
  destruct (C51_cast_commitment H checks cl fuel Lfu L) as (d' & E' & P'). rewrite E'. f_equal.
  assert (Lr : LeafRange (cast_leaves cl)).
  { apply List.Forall_forall. intros x I. apply elem_of_list_In, elem_of_list_lookup in I as (i & I). pose proof (cast_leaves_at _ _ _ I) as Ex.
    assert (Li : (i < length (cast_leaves cl))%nat) by (apply lookup_lt_Some in I; auto).
    assert (El : length (cast_leaves cl) = length cl) by (rewrite <- (cast_leaves_snd cl) at 2; rewrite map_length; auto).
    unfold u64. rewrite Ex. lia. }
  assert (Nn : cast_leaves cl <> []). { intros C. assert (C' : cl = []) by (rewrite <- (cast_leaves_snd cl), C; auto). subst cl. inversion E. }
  destruct (Rd_exists (T := btree (Z * digest)) Nd (length (cast_leaves cl)) (map Lf (cast_leaves cl))) as (t & Rt); [rewrite map_length; auto|destruct (cast_leaves cl); done|].
  assert (T : Trie fst (cast_leaves cl) t).
  { apply (Rounds_numbered (length (cast_leaves cl)) 0); [lia|apply Nat.lt_le_incl, Nat.pow_gt_lin_r; lia| |auto].
    intros i x Ei. rewrite Z.mul_0_l. exact (cast_leaves_at _ _ _ Ei). }
  apply (Trie_PrefixRoot fst (two_to_one H) snd) in T. 
  assert (Em : map (fun x : Z * digest => (fst x, snd x)) (cast_leaves cl) = cast_leaves cl) by (rewrite <- (map_id (cast_leaves cl)) at 2; apply map_ext; intros []; auto).
  rewrite Em in T. eapply prefix_root_unique; [exact Lr|exact P'|].
  apply (Rounds_root (two_to_one H) snd) in Rt. rewrite cast_leaves_snd in Rt. rewrite (Rd_fun _ _ _ E _ Rt). exact T.
Qed.
(** three programs: the last one stays alone in the first round *)
Example C65_example : reduce_tree Nd (map Lf [10; 11; 12; 13; 14; 15; 16]) =
  Some (Nd (Nd (Nd (Lf 10) (Lf 11)) (Nd (Lf 12) (Lf 13))) (Nd (Nd (Lf 14) (Lf 15)) (Lf 16))).
Proof. reflexivity. Qed.
Example C65_cast_example : exists d, reduce_tree (two_to_one toyH) [[1]; [2]; [3]] = Some d /\ merkleize toyH true 10 (cast_leaves [[1]; [2]; [3]]) = Done d.
Proof. eexists. split; reflexivity. Qed.

(** ** C66: the event tree of one program *)
Lemma by_more {A T} `{EqDecision A} (inc : A -> A) (merge : A -> T -> T -> T) : forall f f' l x, (f <= f')%nat ->
  by_address inc merge f l = Some x -> by_address inc merge f' l = Some x.
Proof.
  induction f; intros f' l x L E; (destruct l as [|a [|b l]]; [destruct f'; auto|destruct f'; auto|]); [done|].
  destruct f' as [|f']; [lia|]. cbn [by_address] in *. destruct (by_step _ _ _); [|done]. apply IHf; [lia|auto].
Qed.
(** combining lists by concatenation keeps the order *)
Lemma Rounds_concat {A} (l : list (list A)) x : Rounds app l x -> x = concat l.
Proof.
  assert (E : forall l : list (list A), concat (round app l) = concat l).
  { intros k. induction k as [|y|a b k IH] using pair_ind; cbn; auto. rewrite IH, app_assoc. auto. }
  induction 1 as [x|a b l x R IH]; [cbn; rewrite app_nil_r; auto|]. rewrite IH, E. auto.
Qed.
Lemma step_concat {A} (l l' : list (Z * list A)) : by_step (fun a => a / 2) (fun _ : Z => app) l = Some l' -> concat (map snd l') = concat (map snd l).
Proof.
  assert (C : forall l : list (Z * list A), concat (map (fun g => concat (snd g)) (chunks l)) = concat (map snd l)).
  { induction l0 as [|[a t] r IH]; [auto|]. cbn [chunks map concat snd]. rewrite <- IH. destruct (chunks r) as [|[b ts] cs]; [cbn; rewrite !app_nil_r; auto|].
    destruct (decide (a = b)); cbn; rewrite ?app_nil_r, ?app_assoc; auto. }
  unfold by_step. rewrite <- (C l). generalize (chunks l). intros cs. revert l'. induction cs as [|[a ts] cs IH]; intros l' E; cbn in E; [injection E as <-; auto|].
  destruct (reduce_tree app ts) as [x|] eqn:Ex; [|done]. destruct (reduce_chunks _ _ cs) as [r|]; [|done]. injection E as <-.
  cbn. rewrite (IH r) by auto. f_equal. apply Rounds_concat. apply C65_balanced. auto.
Qed.
Lemma by_concat {A} : forall f (l : list (Z * list A)) k x, by_address (fun a => a / 2) (fun _ : Z => app) f l = Some (Some (k, x)) -> x = concat (map snd l).
Proof.
  induction f; intros l k x E; (destruct l as [|[a t] [|b l]]; [done|cbn in E; injection E as <- <-; cbn; rewrite app_nil_r; auto|]); [done|].
  set (L := (a, t) :: b :: l) in *.
  assert (EB : by_address (fun a => a / 2) (fun _ : Z => app) (S f) L = match by_step (fun a => a / 2) (fun _ : Z => app) L with Some l' => by_address (fun a => a / 2) (fun _ : Z => app) f l' | None => None end) by auto.
  rewrite EB in E. destruct (by_step _ _ L) as [l'|] eqn:El; [|done]. rewrite <- (step_concat _ _ El). eapply IHf. eauto.
Qed.
Section C66.
  Context {E : Type} (H : list Z -> dig).
  Notation ent := (fun x : dig * Z * E => (ev_ad x, ev_leaf x)).
  Notation mk := (fun (a : baddr) (l r : enode E) => EvB a (f2to1 H (en_hash l) (en_hash r)) l r).
  Definition Kb (h : nat) (q : Z) : baddr := BA (Z.of_nat h) q.
  Lemma Kb_inc h q : add1 (Kb h q) = Kb (S h) (q / 2).
  Proof. unfold add1, Kb. cbn. rewrite Z.shiftr_div_pow2 by lia. f_equal. lia. Qed.
  Lemma Kb_inj h q q' : Kb h q = Kb h q' -> q = q'.
  Proof. intros [= ]. auto. Qed.
  Lemma ent_map l : map (fun '(h, a, e) => (base a, EvL h a e)) l = map (ren Kb 0) (map ent l).
  Proof. rewrite map_map. apply map_ext. intros [[h a] e]. auto. Qed.
  (** the node's tree and what any two-to-one function makes of the same list *)
  Lemma event_by {D} (two : D -> D -> D) (phi : enode E -> D) : (forall a l r, phi (mk a l r) = two (phi l) (phi r)) ->
    forall fuel l t, event_tree H fuel l = Some (Some t) ->
    exists k, by_address (fun a => a / 2) (fun _ : Z => two) fuel (map (fun x => (ev_ad x, phi (ev_leaf x))) l) = Some (Some (k, phi t)).
  Proof.
    intros hom fuel l t Et. unfold event_tree in Et. rewrite ent_map in Et.
    destruct (by_nat add1 mk two phi Kb Kb_inc Kb_inj hom fuel 0 (map ent l)) as (o & E1 & E2). cbv beta in E1. rewrite E1 in Et.
    rewrite map_map in E2. unfold img in E2. cbn [fst snd] in E2. rewrite E2.
    destruct o as [[[[h k] y]|]|]; cbn in Et; try done. injection Et as <-. exists k. auto.
  Qed.
  Lemma event_total fuel (l : list (dig * Z * E)) : (65 <= fuel)%nat -> l <> [] -> addr_range ev_ad l -> exists t, event_tree H fuel l = Some (Some t).
  Proof.
    intros L N R. unfold event_tree. rewrite ent_map.
    destruct (by_nat add1 mk (fun _ _ => tt) (fun _ => tt) Kb Kb_inc Kb_inj (fun _ _ _ => eq_refl) fuel 0 (map ent l)) as (o & E1 & E2). cbv beta in E1. rewrite E1.
    destruct (bad_terminates (fun _ _ => tt) fuel 0 (map (img (fun _ => tt)) (map ent l))) as (k & d & B).
    - lia.
    - destruct l; done.
    - change (0 <? 65)%nat with true. cbv iota. change (64 - Z.of_nat 0) with 64. rewrite map_map. apply List.Forall_forall. intros x I.
      apply in_map_iff in I as (y & <- & I). unfold addr_range in R. rewrite List.Forall_forall in R. apply (R y I).
    - rewrite B in E2. destruct o as [[[[h q] y]|]|]; cbn in E2; try done. cbn. eauto.
  Qed.
  Lemma Rounds_phi {T D} (m : T -> T -> T) (two : D -> D -> D) (phi : T -> D) : (forall l r, phi (m l r) = two (phi l) (phi r)) ->
    forall l x, Rounds m l x -> Rounds two (map phi l) (phi x).
  Proof.
    intros hom. assert (Er : forall l, map phi (round m l) = round two (map phi l)).
    { intros l. induction l as [|y|a b k IH] using pair_ind; cbn; auto. rewrite IH, hom. auto. }
    induction 1 as [x|a b l x R IH]; [constructor|]. rewrite Er in IH. constructor. auto.
  Qed.
  Lemma ETree_Trie (l : list (dig * Z * E)) t : ETree H l t -> Trie ev_ad l (tree_of t).
  Proof.
    induction 1 as [l a t Ba F R|l1 l2 b p t1 t2 B F1 F2 T1 IH1 T2 IH2].
    - apply (TBucket _ _ a); [auto|]. apply (Rounds_phi _ Nd tree_of) in R; [|auto]. rewrite map_map in R.
      erewrite map_ext; [exact R|]. intros [[h q] e]. auto.
    - cbn. eapply TSplit; eauto.
  Qed.
  Lemma event_sorted (l : list (dig * Z * E)) t : l <> [] -> by_addr ev_ad l -> addr_range ev_ad l -> event_tree H 65 l = Some (Some t) -> ETree H l t.
  Proof.
    intros N So R Et. 
    destruct (by_address_ok add1 mk Kb ev_ad ev_leaf (ETree H) Kb_inc Kb_inj) with (l := l) as (k & t' & E1 & T); auto.
    - intros l' a u Ba F Ru. apply (EBucket H l' a); auto.
    - intros l1 l2 b p t1 t2 F1 F2 T1 T2. replace (Kb (S b) p) with (BA (Z.of_nat b + 1) p) by (unfold Kb; f_equal; lia).
      apply (ESplit H l1 l2 (Z.of_nat b) p t1 t2); auto. lia.
    - unfold event_tree in Et. rewrite ent_map in Et. rewrite map_map in Et. unfold ren in Et. cbn [fst snd] in Et. cbv beta in E1. rewrite E1 in Et. cbn in Et.
      injection Et as <-. auto.
  Qed.
End C66.
(** every program's event tree is built, holds exactly its events in the order given, and its hash is the root of that tree;
    when the events are ordered by address, it is the tree that splits on the highest differing address bit *)
Theorem C66_event_tree : forall E H (l : list (dig * Z * E)) fuel, (65 <= fuel)%nat -> l <> [] -> addr_range ev_ad l ->
  exists t, event_tree H fuel l = Some (Some t) /\ leaves (tree_of t) = l /\ en_hash t = root (f2to1 H) ev_hs (tree_of t) /\
    (by_addr ev_ad l -> ETree H l t /\ Trie ev_ad l (tree_of t)).
Proof.
  intros E H l fuel Lf N R. destruct (event_total H 65 l ltac:(lia) N R) as (t & Et). exists t.
  split. { unfold event_tree in *. destruct (by_address add1 _ 65 _) as [o|] eqn:Eo; [|done]. rewrite (by_more _ _ 65 fuel _ _ Lf Eo). auto. }
  split. { destruct (event_by H app (fun t : enode E => leaves (tree_of t))) with (fuel := 65%nat) (l := l) (t := t) as (k & B); [auto|auto|].
    apply by_concat in B. rewrite B, map_map. cbn [snd]. rewrite <- (concat_single l) at 2. f_equal. apply map_ext. intros [[h a] e]. auto. }
  split. 2: { intros S. assert (T : ETree H l t) by (apply event_sorted; auto). split; [auto|]. eapply ETree_Trie; eauto. }
  assert (G : exists k, by_address (fun a => a / 2) (fun _ : Z => (fun x y => (f2to1 H (fst x) (fst y), f2to1 H (snd x) (snd y)))) 65
     (map (fun x => (ev_ad x, (fun t : enode E => (en_hash t, root (f2to1 H) ev_hs (tree_of t))) (ev_leaf x))) l) = Some (Some (k, (en_hash t, root (f2to1 H) ev_hs (tree_of t))))).
  { apply (event_by H (fun x y => (f2to1 H (fst x) (fst y), f2to1 H (snd x) (snd y))) (fun t : enode E => (en_hash t, root (f2to1 H) ev_hs (tree_of t)))); auto. }
  clear Et N R. destruct G as (k & G).
  assert (IV : forall f (m : list (Z * (dig * dig))) k x, Forall (fun p => fst (snd p) = snd (snd p)) m ->
    by_address (fun a => a / 2) (fun _ : Z => (fun x y => (f2to1 H (fst x) (fst y), f2to1 H (snd x) (snd y)))) f m = Some (Some (k, x)) -> fst x = snd x).
  2: { apply (IV _ _ _ (en_hash t, root (f2to1 H) ev_hs (tree_of t))) in G; [exact G|]. apply List.Forall_forall. intros p I. apply in_map_iff in I as ([[h a] e] & <- & _). auto. }
  clear. set (two := fun x y : dig * dig => (f2to1 H (fst x) (fst y), f2to1 H (snd x) (snd y))).
  assert (R : forall l x, Rounds two l x -> Forall (fun p => fst p = snd p) l -> fst x = snd x).
  { induction 1 as [x|a b l x R IH]; intros F; [inversion F; auto|]. apply IH. clear -F.
    induction (a :: b :: l) as [|y|c d k IH] using pair_ind; auto. inversion F as [|? ? Fc F']; subst. inversion F' as [|? ? Fd F'']; subst.
    cbn. constructor; [cbn; congruence|auto]. }
  assert (Ck : forall m, Forall (fun p : Z * (dig * dig) => fst (snd p) = snd (snd p)) m -> Forall (fun g => Forall (fun p => fst p = snd p) (snd g)) (chunks m)).
  { induction m as [|[a p] m IH]; intros F; [constructor|]. inversion F as [|? ? Fp Fm]; subst. specialize (IH Fm). cbn. destruct (chunks m) as [|[b ts] cs]; [repeat constructor; auto|].
    inversion IH as [|? ? I1 I2]; subst. destruct (decide (a = b)); repeat (constructor; auto). }
  assert (Cr : forall cs l', Forall (fun g : Z * list (dig * dig) => Forall (fun p => fst p = snd p) (snd g)) cs -> reduce_chunks (fun a => a / 2) (fun _ : Z => two) cs = Some l' ->
    Forall (fun p : Z * (dig * dig) => fst (snd p) = snd (snd p)) l').
  { induction cs as [|[a ts] cs IH]; intros l' F Er; cbn in Er; [injection Er as <-; constructor|]. inversion F as [|? ? Fa Fc]; subst.
    destruct (reduce_tree two ts) as [x|] eqn:Ex; [|done]. destruct (reduce_chunks _ _ cs) as [r|]; [|done]. injection Er as <-.
    constructor; [|apply IH; auto]. cbn. eapply R; [apply C65_balanced; exact Ex|auto]. }
  induction f; intros m k x F E; (destruct m as [|[a p] [|b m]]; [done|cbn in E; injection E as <- <-; inversion F; auto|]); [done|].
  set (L := (a, p) :: b :: m) in *.
  assert (EB : by_address (fun a => a / 2) (fun _ : Z => two) (S f) L = match by_step (fun a => a / 2) (fun _ : Z => two) L with Some l' => by_address (fun a => a / 2) (fun _ : Z => two) f l' | None => None end) by auto.
  rewrite EB in E. destruct (by_step _ _ L) as [l'|] eqn:El; [|done]. eapply IHf; [|exact E]. eapply Cr; [|exact El]. apply Ck. auto.
Qed.
(** the SDK's commitment to the same events, with any two-to-one function and any leaf digests, is the root of the same tree *)
Theorem C66_sdk_root : forall E H (l : list (dig * Z * E)) t fuel, event_tree H fuel l = Some (Some t) -> (65 <= fuel)%nat -> addr_range ev_ad l ->
  forall (H' : list Z -> digest) (f : dig * Z * E -> digest) checks fuel' d,
    merkleize H' checks fuel' (map (fun x => (ev_ad x, f x)) l) = Done d -> d = root (two_to_one H') f (tree_of t).
Proof.
  intros E H l t fuel Et Lf R H' f checks fuel' d M.
  assert (N : l <> []) by (intros ->; destruct fuel; done).
  apply merkleize_by_address in M as (k & M).
  - apply (by_more _ _ 65 fuel _ _ Lf) in M.
    destruct (event_by H (two_to_one H') (fun t : enode E => root (two_to_one H') f (tree_of t))) with (fuel := fuel) (l := l) (t := t) as (k' & B); [auto|auto|].
    assert (Em : map (fun x => (ev_ad x, root (two_to_one H') f (tree_of (ev_leaf x)))) l = map (fun x => (ev_ad x, f x)) l).
    { apply map_ext. intros [[h a] e]. auto. }
    rewrite Em, M in B. congruence.
  - destruct l; done.
  - apply List.Forall_forall. intros x I. apply in_map_iff in I as (y & <- & I). unfold addr_range in R. rewrite List.Forall_forall in R. apply (R y I).
Qed.
Definition c66_h (n : Z) : dig := Dig n 0 0 0.
Definition c66_toy (l : list Z) : dig := Dig (fold_left (fun a x => (3 * a + x + 1) mod P) l 7) 0 0 0.
Definition c66_events (addrs : list Z) : list (dig * Z * unit) := map (fun a => (c66_h (a + 100), a, tt)) addrs.
Definition c66_shape (addrs : list Z) : option (btree Z) :=
  match event_tree c66_toy 65 (c66_events addrs) with
  | Some (Some t) => Some ((fix sh t := match t with EvL _ a _ => Lf a | EvB _ _ l r => Nd (sh l) (sh r) end) t) | _ => None end.
Example C66_example_sorted : c66_shape [1; 4; 4; 4; 5] = Some (Nd (Lf 1) (Nd (Nd (Nd (Lf 4) (Lf 4)) (Lf 4)) (Lf 5))).
Proof. reflexivity. Qed.
(** events out of order: 0 and 1 do not become neighbours (the SDK's root has the same shape) *)
Example C66_example_unsorted : c66_shape [0; 256; 1] = Some (Nd (Nd (Lf 0) (Lf 256)) (Lf 1)).
Proof. reflexivity. Qed.

(** ** C67: partial addresses *)
(** the comparison tells the relation of two partial addresses, and exactly one relation holds *)
Theorem C67_compare_partial : forall x y, ba_ok x -> ba_ok y -> Z.abs (ba_h x - ba_h y) < 64 ->
  exists c, compare x y = Some c /\ relates x y c /\ forall c', relates x y c' -> c' = c.
Proof.
  intros x y Ox Oy L. destruct (compare_ok x y Ox Oy L) as (c & E & R). exists c. split; [auto|]. split; [auto|].
  intros c' R'. exact (relates_excl x y c' c Ox Oy R' R).
Qed.
(** two leaves have a lowest common ancestor, unless they lie in different halves of the address space: then the node panics *)
Theorem C67_leaf_ancestor : forall a b, 0 <= a < 2 ^ 64 -> 0 <= b < 2 ^ 64 ->
  (a / 2 ^ 63 = b / 2 ^ 63 -> exists z, common_ancestor (base a) (base b) = Some z /\ above z (base a) /\ above z (base b) /\
     forall w, above w (base a) -> above w (base b) -> above w z) /\
  (a / 2 ^ 63 <> b / 2 ^ 63 -> common_ancestor (base a) (base b) = None).
Proof.
  intros a b Ba Bb. destruct (ancestor_ok (base a) (base b)) as (O1 & O2); [split; cbn; lia|split; cbn; lia|cbn; lia|].
  cbn [base ba_h ba_a] in O1, O2. change (Z.max 0 0 - 0) with 0 in O1, O2. rewrite Z.pow_0_r, !Z.div_1_r in O1, O2.
  pose proof (bitlen_xor a b 63 ltac:(lia) ltac:(lia) ltac:(lia)) as X. split; intros E.
  - apply O1. apply X in E. lia.
  - apply O2. assert (~ bitlen (Z.lxor a b) <= 63) by (rewrite X; auto). lia.
Qed.
Theorem C67_ancestor_partial : forall x y, ba_ok x -> ba_ok y -> Z.abs (ba_h x - ba_h y) < 64 ->
  let h := Z.max (ba_h x) (ba_h y) in
  ba_a x / 2 ^ (h - ba_h x) / 2 ^ 63 = ba_a y / 2 ^ (h - ba_h y) / 2 ^ 63 ->
  exists z, common_ancestor x y = Some z /\ above z x /\ above z y /\ forall w, above w x -> above w y -> above w z.
Proof.
  intros x y Ox Oy L h E. destruct (ancestor_ok x y Ox Oy L) as (O1 & _). apply O1. destruct Ox as (Hx & Bx), Oy as (Hy & By).
  fold h.
  assert (Px : 0 <= ba_a x / 2 ^ (h - ba_h x)) by (clear -Bx Hx; subst h; apply Z.div_pos; [lia|apply Z.pow_pos_nonneg; lia]).
  assert (Py : 0 <= ba_a y / 2 ^ (h - ba_h y)) by (clear -By Hy; subst h; apply Z.div_pos; [lia|apply Z.pow_pos_nonneg; lia]).
  apply (bitlen_xor _ _ 63 Px Py ltac:(clear; lia)) in E. revert E. generalize (bitlen (Z.lxor (ba_a x / 2 ^ (h - ba_h x)) (ba_a y / 2 ^ (h - ba_h y)))). clear. intros; lia.
Qed.
(** the event tree of a program that touches both halves of the address space cannot be compared with any leaf *)
Theorem C67_compare_refuted : forall E H (h1 h2 : dig) (e1 e2 : E), exists t, event_tree H 65 [(h1, 0, e1); (h2, 2 ^ 63, e2)] = Some (Some t) /\
  forall a, compare (en_addr t) (base a) = None /\ compare (base a) (en_addr t) = None.
Proof. intros. eexists. split; [reflexivity|]. intros a. split; reflexivity. Qed.
(** the children of a branch are its two halves *)
Theorem C67_child : forall h a (r : bool), 1 <= h -> 0 <= a < 2 ^ 63 -> exists c, child (BA h a) r = inl c /\
  lo c = (if r then mid (BA h a) else lo (BA h a)) /\ hi c = (if r then hi (BA h a) else mid (BA h a)).
Proof.
  intros h a r Lh Ba. unfold child. cbn [ba_h ba_a]. replace (h =? 0) with false by (symmetry; apply Z.eqb_neq; lia).
  eexists. split; [reflexivity|]. rewrite Z.shiftl_mul_pow2 by lia. change (2 ^ 1) with 2. rewrite Z.mod_small by lia.
  assert (E : Z.lor (a * 2) (if r then 1 else 0) = 2 * a + (if r then 1 else 0)).
  { destruct r; [|rewrite Z.lor_0_r; lia]. replace (a * 2) with (2 * a) by lia. apply Z.bits_inj'. intros n Hn. rewrite Z.lor_spec.
    destruct (decide (n = 0)) as [->|Nn]; [rewrite Z.testbit_even_0, Z.testbit_odd_0; auto|].
    replace n with (Z.succ (n - 1)) by lia. rewrite Z.testbit_even_succ, Z.testbit_odd_succ by lia. rewrite (Z.bits_above_log2 1); [apply orb_false_r|lia|cbn; lia]. }
  unfold mid, lo, hi. cbn [ba_h ba_a]. assert (E2 : 2 ^ h = 2 * 2 ^ (h - 1)) by (rewrite <- Z.pow_succ_r by lia; f_equal; lia).
  rewrite E, E2. destruct r; lia.
Qed.
Example C67_example : compare (BA 2 1) (base 6) = Some RightChild /\ common_ancestor (base 6) (BA 1 0) = Some (BA 3 0) /\ relates (BA 2 1) (base 6) RightChild.
Proof. split; [reflexivity|]. split; [reflexivity|]. cbn. unfold mid, lo, hi. cbn. lia. Qed.
Example C67_halves : common_ancestor (base 0) (base (2 ^ 63)) = None.
Proof. reflexivity. Qed.

(** ** C68: the programs of a transaction may arrive in any order *)
(** for numbers of programs whose tree fits the path bits: whatever the order, every program is accepted, the transaction is
    complete exactly when the last one has arrived, and its value is the combination in cast order *)
Theorem C68_any_order_partial : forall X (join : X -> X -> X) (x : nat -> X) n i order, good_cast n = true ->
  base.NoDup (i :: order) -> (forall q, q ∈ i :: order -> (q < n)%nat) ->
  exists t, ingest_all (fun a b => Some (join a b)) n None (map (fun q => (q, x q)) (i :: order)) = Some (Some t) /\
    (if (length (i :: order) =? n)%nat then exists v, t = OProc v /\ Rounds join (map x (seq 0 n)) v else forall v, t <> OProc v).
Proof. intros. apply good_order; auto. Qed.
(** for all other numbers: when program 0 arrives first, the transaction is never completed, whatever follows *)
Theorem C68_any_order_refuted : forall X (join : X -> X -> X) n x order t, good_cast n = false -> (1 <= n)%nat ->
  ingest_all (fun a b => Some (join a b)) n None ((0%nat, x) :: order) = Some (Some t) -> forall v, t <> OProc v.
Proof. intros X join n x order t. apply bad_stuck. Qed.
(** with 4, 8, 16, ... programs it is never completed in any order *)
Theorem C68_power_of_two_refuted : forall X (join : X -> X -> option X) k order t, (2 <= k)%nat ->
  ingest_all join (2 ^ k) None order = Some (Some t) -> forall v, t <> OProc v.
Proof. intros. eapply power_of_two_stuck; eauto. Qed.
(** a program whose proof was accepted is refused with an error ("duplicate proof detected") from then on, whatever else
    arrives in between *)
Fixpoint met {X} (node : onode X) (p : option (nat * Z)) : Prop :=
  match node, p with OProc _, _ => True | OBr l r, Some q => let '(q', dir) := path_step q in met (if dir then r else l) q' | _, _ => False end.
Lemma met_err {X} (join : X -> X -> option X) node : forall p y, met node p -> insert join node p y = IErr.
Proof.
  induction node as [v|l IHl r IHr|]; intros [p|] y M; try reflexivity; try destruct M. cbn [met] in M. cbn [insert]. destruct (path_step p) as [p' dir]. destruct dir; [rewrite (IHr _ y M)|rewrite (IHl _ y M)]; reflexivity.
Qed.
Lemma met_insert {X} (join : X -> X -> option X) node : forall p y node', insert join node p y = IOk node' -> met node' p.
Proof.
  induction node as [v|l IHl r IHr|]; intros [p|] y node' Q; cbn [insert] in Q; try discriminate Q.
  - destruct (path_step p) as [p' dir] eqn:D. destruct (insert join (if dir then r else l) p' y) as [c| |] eqn:C; try discriminate Q.
    assert (K : met c p') by (destruct dir; [exact (IHr _ _ _ C)|exact (IHl _ _ _ C)]).
    assert (G : met (OBr (if dir then l else c) (if dir then c else r)) (Some p)) by (cbn [met]; rewrite D; destruct dir; exact K).
    destruct (if dir then l else c) as [a| |]; destruct (if dir then c else r) as [b| |]; try (injection Q as <-; exact G). destruct (join a b); [|discriminate Q]. injection Q as <-. exact I.
  - destruct p as [h a]. destruct (a =? 0), y; try discriminate Q. injection Q as <-. exact I.
  - destruct y; [|discriminate Q]. injection Q as <-. exact I.
Qed.
Lemma met_keeps {X} (join : X -> X -> option X) node : forall p q y node', met node p -> insert join node q y = IOk node' -> met node' p.
Proof.
  induction node as [v|l IHl r IHr|]; intros p q y node' M Q; [destruct q; discriminate Q| |destruct p; destruct M].
  destruct p as [p|]; [|destruct M]. destruct q as [q|]; [|discriminate Q]. cbn [insert] in Q. destruct (path_step q) as [q' dq] eqn:Dq. destruct (insert join (if dq then r else l) q' y) as [c| |] eqn:C; try discriminate Q.
  assert (G : met (OBr (if dq then l else c) (if dq then c else r)) (Some p)).
  { cbn [met] in M |- *. destruct (path_step p) as [p' dp]. destruct dp, dq; auto; [exact (IHr _ _ _ _ M C)|exact (IHl _ _ _ _ M C)]. }
  destruct (if dq then l else c) as [a| |]; destruct (if dq then c else r) as [b| |]; try (injection Q as <-; exact G). destruct (join a b); [|discriminate Q]. injection Q as <-. exact I.
Qed.
Theorem C68_duplicate : forall X (join : X -> X -> option X) n i x t t1 order t2 y,
  ingest join n (Some t) i (Some x) = IOk t1 -> ingest_all join n (Some t1) order = Some (Some t2) -> ingest join n (Some t2) i y = IErr.
Proof.
  intros X join n i x t t1 order t2 y E F. unfold ingest in E |- *. destruct (i <? n)%nat; [|reflexivity]. apply met_err. apply met_insert in E. revert t1 E F.
  induction order as [|[j z] order IH]; intros t1 M F; cbn [ingest_all] in F; [injection F as <-; exact M|]. destruct (ingest join n (Some t1) j (Some z)) as [t'| |] eqn:Q; try discriminate F. apply (IH t'); [|exact F]. unfold ingest in Q. destruct (j <? n)%nat; [|discriminate Q]. eapply met_keeps; eauto.
Qed.
Definition c68_run (n : nat) (order : list nat) := ingest_all (fun a b => Some (a ++ b)) n None (map (fun i => (i, [i])) order).
Example C68_example_3 : c68_run 3 [1; 2; 0]%nat = Some (Some (OProc [0; 1; 2]%nat)).
Proof. reflexivity. Qed.
Example C68_example_2 : c68_run 2 [1; 0]%nat = Some (Some (OProc [0; 1]%nat)) /\ c68_run 2 [0; 1]%nat = None.
Proof. split; reflexivity. Qed.
Example C68_twice : exists t1 t2, ingest (fun a b => Some (a ++ b)) 5 (Some (OBr (OBr (OBr OLf OLf) (OBr OLf (OProc [3%nat]))) OLf)) 1 (Some [1%nat]) = IOk t1 /\
  ingest_all (fun a b => Some (a ++ b)) 5 (Some t1) [(2%nat, [2%nat])] = Some (Some t2) /\ ingest (fun a b => Some (a ++ b)) 5 (Some t2) 1 (Some [7%nat]) = IErr.
Proof. eexists _, _. split; [reflexivity|]. split; reflexivity. Qed.
Example C68_good_list : filter (fun n => good_cast n = false) (seq 1 16) = [2; 4; 6; 8; 10; 11; 12; 14; 16]%nat.
Proof. reflexivity. Qed.

Print Assumptions C65_balanced.
Print Assumptions C65_cast_root.
Print Assumptions C66_event_tree.
Print Assumptions C66_sdk_root.
Print Assumptions C67_compare_partial.
Print Assumptions C67_leaf_ancestor.
Print Assumptions C67_ancestor_partial.
Print Assumptions C67_compare_refuted.
Print Assumptions C67_child.
Print Assumptions C68_any_order_partial.
Print Assumptions C68_any_order_refuted.
Print Assumptions C68_power_of_two_refuted.
Print Assumptions C68_duplicate.
