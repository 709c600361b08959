(** Proofs about the layout of batched commitments. *)
From stdpp Require Import list.
From Coq Require Import Permutation Sorted Lia PeanoNat Bool List.
From Verif Require Import Word BatchModel BatchSpec.
Open Scope nat_scope.

Definition sum_of (count : nat -> nat) (l : list nat) : nat := list_sum (map count l).
Lemma sum_of_app c l1 l2 : sum_of c (l1 ++ l2) = sum_of c l1 + sum_of c l2.
Proof. unfold sum_of. rewrite map_app, list_sum_app. reflexivity. Qed.
Lemma sum_of_cons c x l : sum_of c (x :: l) = c x + sum_of c l.
Proof. reflexivity. Qed.
Lemma sum_of_nil c : sum_of c [] = 0.
Proof. reflexivity. Qed.
Lemma sum_of_perm c l1 l2 : Permutation l1 l2 -> sum_of c l1 = sum_of c l2.
Proof. induction 1; rewrite ?sum_of_cons; lia. Qed.

(** ** Stable sorting by a key *)
Section Sorting.
  Context {A : Type} (key : A -> nat).
  Notation F d l := (List.filter (fun x => key x =? d) l).

  Lemma insert_front x l : List.Forall (fun y => key y <= key x) l -> insert_desc key x l = x :: l.
  Proof. destruct l as [|y l]; cbn; [reflexivity|]. intros H; inversion H; subst. rewrite (proj2 (Nat.leb_le _ _)) by assumption. reflexivity. Qed.
  Lemma insert_skip x l1 l2 : List.Forall (fun y => key x < key y) l1 -> insert_desc key x (l1 ++ l2) = l1 ++ insert_desc key x l2.
  Proof.
    induction l1 as [|y l1 IH]; cbn; [reflexivity|]. intros H; inversion H; subst.
    rewrite (proj2 (Nat.leb_gt _ _)) by assumption. now rewrite IH.
  Qed.
  Lemma filter_key d l : List.Forall (fun y => key y = d) (F d l).
  Proof. apply List.Forall_forall. intros x Hx. apply List.filter_In in Hx as [_ H]. now apply Nat.eqb_eq. Qed.
  Lemma groups_keys ds l : List.Forall (fun y => List.In (key y) ds) (flat_map (fun d => F d l) ds).
  Proof. apply List.Forall_forall. intros x Hx. apply in_flat_map in Hx as [d [Hd H]]. apply List.filter_In in H as [_ H]. apply Nat.eqb_eq in H. now rewrite H. Qed.

  Lemma flat_map_skip x l ds : ~ List.In (key x) ds -> flat_map (fun d => F d (x :: l)) ds = flat_map (fun d => F d l) ds.
  Proof.
    induction ds as [|d ds IH]; [reflexivity|]. intros H. cbn [flat_map]. cbn in H. rewrite IH by tauto. cbn [List.filter].
    destruct (key x =? d) eqn:E; [apply Nat.eqb_eq in E; exfalso; auto|reflexivity].
  Qed.
  Lemma insert_groups x l ds : StronglySorted (fun a b => b < a) ds -> List.In (key x) ds ->
    insert_desc key x (flat_map (fun d => F d l) ds) = flat_map (fun d => F d (x :: l)) ds.
  Proof.
    induction 1 as [|d ds Hs IH Hd]; [intros []|]. intros Hin.
    rewrite List.Forall_forall in Hd. cbn [flat_map].
    destruct (Nat.eq_dec (key x) d) as [E|E].
    - rewrite insert_front.
      + rewrite flat_map_skip by (intros H; apply Hd in H; lia). cbn [List.filter]. rewrite E, Nat.eqb_refl. reflexivity.
      + apply List.Forall_app. split.
        * eapply List.Forall_impl; [|apply filter_key]. cbn. lia.
        * eapply List.Forall_impl; [|apply groups_keys]. cbn. intros y Hy. apply Hd in Hy. lia.
    - destruct Hin as [->|Hin]; [congruence|]. pose proof (Hd _ Hin).
      rewrite insert_skip, IH by (assumption || (eapply List.Forall_impl; [|apply filter_key]; cbn; lia)).
      cbn [List.filter]. rewrite (proj2 (Nat.eqb_neq _ _)) by assumption. reflexivity.
  Qed.
  Lemma sort_groups l ds : StronglySorted (fun a b => b < a) ds -> (forall x, List.In x l -> List.In (key x) ds) ->
    sort_desc key l = flat_map (fun d => F d l) ds.
  Proof.
    intros Hs. induction l as [|x l IH]; intros H.
    - cbn. clear. induction ds; cbn; auto.
    - cbn [sort_desc fold_right]. fold (sort_desc key l). rewrite IH by (intros; apply H; right; assumption).
      apply insert_groups; [assumption|apply H; left; reflexivity].
  Qed.
End Sorting.

(** ** The degrees *)
Lemma insert_nat_perm x l : Permutation (insert_nat x l) (x :: l).
Proof. induction l as [|y l IH]; cbn; [reflexivity|]. destruct (x <=? y); [reflexivity|]. rewrite IH. constructor. Qed.
Lemma sort_nat_perm l : Permutation (sort_nat l) l.
Proof. induction l as [|x l IH]; cbn; [reflexivity|]. rewrite insert_nat_perm, IH. reflexivity. Qed.
Lemma insert_nat_sorted x l : StronglySorted le l -> StronglySorted le (insert_nat x l).
Proof.
  induction 1 as [|y l Hs IH Hy]; cbn; [repeat constructor|]. destruct (x <=? y) eqn:E.
  - apply Nat.leb_le in E. constructor; [constructor; assumption|]. constructor; [assumption|]. eapply List.Forall_impl; [|exact Hy]. cbn. lia.
  - apply Nat.leb_gt in E. constructor; [assumption|]. apply List.Forall_forall. intros z Hz.
    rewrite List.Forall_forall in Hy. apply (Permutation_in _ (insert_nat_perm x l)) in Hz. destruct Hz as [<-|Hz]; [lia|auto].
Qed.
Lemma sort_nat_sorted l : StronglySorted le (sort_nat l).
Proof. induction l; cbn; [constructor|]. now apply insert_nat_sorted. Qed.
Lemma sorted_snoc {A} (R : A -> A -> Prop) l x : StronglySorted R l -> List.Forall (fun y => R y x) l -> StronglySorted R (l ++ [x]).
Proof.
  induction 1 as [|y l Hs IH Hy]; cbn; intros H; [repeat constructor|]. inversion H; subst.
  constructor; [auto|]. apply List.Forall_app. split; [assumption|]. repeat constructor; assumption.
Qed.
Lemma rev_sorted l : StronglySorted le l -> StronglySorted (fun a b => b <= a) (rev l).
Proof.
  induction 1 as [|y l Hs IH Hy]; cbn; [constructor|]. apply sorted_snoc; [assumption|].
  apply List.Forall_forall. intros x Hx. rewrite <- in_rev in Hx. rewrite List.Forall_forall in Hy. auto.
Qed.
Lemma dedup_in x l : List.In x (dedup l) <-> List.In x l.
Proof.
  induction l as [|y l IH]; [reflexivity|]. destruct l as [|z l']; [reflexivity|].
  cbn [dedup] in *. destruct (y =? z) eqn:E.
  - apply Nat.eqb_eq in E; subst. rewrite IH. cbn. tauto.
  - cbn [List.In] in *. rewrite IH. reflexivity.
Qed.
Lemma dedup_sorted l : StronglySorted (fun a b => b <= a) l -> StronglySorted (fun a b => b < a) (dedup l).
Proof.
  induction 1 as [|y l Hs IH Hy]; [constructor|]. destruct l as [|z l']; [repeat constructor|].
  cbn [dedup] in *. destruct (y =? z) eqn:E; [assumption|]. constructor; [assumption|].
  apply Nat.eqb_neq in E. apply List.Forall_forall. intros x Hx. apply (dedup_in x (z :: l')) in Hx.
  inversion Hs as [|? ? Hs' Hz]; subst. rewrite List.Forall_forall in Hy, Hz.
  pose proof (Hy z (or_introl eq_refl)). destruct Hx as [<-|Hx]; [lia|]. specialize (Hz _ Hx). cbn in Hz. lia.
Qed.

Section Layout.
  Context (K : nat) (pub : list nat) (deg : nat -> nat).
  Notation ds := (sort_degree_bits K pub deg).
  Notation B := (batched K pub).

  Lemma ds_sorted : StronglySorted (fun a b => b < a) ds.
  Proof. apply dedup_sorted, rev_sorted, sort_nat_sorted. Qed.
  Lemma ds_in d : List.In d ds <-> exists k, List.In k B /\ deg k = d.
  Proof.
    unfold sort_degree_bits. rewrite dedup_in, <- in_rev.
    split; [intros H; apply (Permutation_in _ (sort_nat_perm _)), in_map_iff in H as [k [H H']]; eauto|].
    intros [k [H1 H2]]. apply (Permutation_in _ (Permutation_sym (sort_nat_perm _))), in_map_iff. eauto.
  Qed.
  Lemma ds_nodup : List.NoDup ds.
  Proof.
    pose proof ds_sorted as H. induction H as [|d l Hs IH Hd]; constructor; [|assumption].
    intros Hin. rewrite List.Forall_forall in Hd. specialize (Hd _ Hin). lia.
  Qed.
  Lemma is_public_in k : is_public pub k = true <-> List.In k pub.
  Proof. unfold is_public. rewrite existsb_exists. split; [intros [x [H E]]; apply Nat.eqb_eq in E; now subst|]. intros H; exists k. split; [assumption|apply Nat.eqb_refl]. Qed.
  Lemma in_batched k : List.In k B <-> is_batched K pub k.
  Proof.
    unfold batched, all_kinds, is_batched. rewrite List.filter_In, in_seq, negb_true_iff, <- is_public_in.
    destruct (is_public pub k); split; intros [H1 H2]; split; try lia; try congruence; try discriminate. 
  Qed.
  Lemma seq_sorted a n : StronglySorted lt (seq a n).
  Proof. revert a. induction n; cbn; constructor; [auto|]. apply List.Forall_forall. intros x Hx. apply in_seq in Hx. lia. Qed.
  Lemma filter_sorted {A} (R : A -> A -> Prop) f l : StronglySorted R l -> StronglySorted R (List.filter f l).
  Proof.
    induction 1 as [|x l Hs IH Hx]; cbn; [constructor|]. destruct (f x); [|assumption]. constructor; [assumption|].
    apply List.Forall_forall. intros y Hy. apply List.filter_In in Hy as [Hy _]. rewrite List.Forall_forall in Hx. auto.
  Qed.
  Lemma batched_sorted : StronglySorted lt B.
  Proof. apply filter_sorted, seq_sorted. Qed.
  Lemma filter_comm {A} (f g : A -> bool) l : List.filter f (List.filter g l) = List.filter g (List.filter f l).
  Proof. induction l as [|x l IH]; cbn; [reflexivity|]. destruct (g x) eqn:G; destruct (f x) eqn:E; cbn; rewrite ?G, ?E, IH; reflexivity. Qed.
  Lemma group_filter d : group K pub deg d = List.filter (fun k => deg k =? d) B.
  Proof. unfold group, batched. apply filter_comm. Qed.
  Lemma group_in d k : List.In k (group K pub deg d) <-> is_batched K pub k /\ deg k = d.
  Proof. rewrite group_filter, List.filter_In, in_batched, Nat.eqb_eq. reflexivity. Qed.

  (** The order in which the tables are laid out *)
  Definition order : list nat := flat_map (group K pub deg) ds.
  Lemma sorted_app {A} (R : A -> A -> Prop) l1 l2 : StronglySorted R l1 -> StronglySorted R l2 -> (forall x y, List.In x l1 -> List.In y l2 -> R x y) -> StronglySorted R (l1 ++ l2).
  Proof.
    induction 1 as [|x l Hs IH Hx]; cbn; intros H2 H; [assumption|]. constructor; [apply IH; [assumption|intros; apply H; auto]|].
    apply List.Forall_app. split; [assumption|]. apply List.Forall_forall. intros y Hy. apply H; auto.
  Qed.
  Lemma sorted_impl {A} (R R' : A -> A -> Prop) l : StronglySorted R l -> (forall x y, List.In x l -> List.In y l -> R x y -> R' x y) -> StronglySorted R' l.
  Proof.
    induction 1 as [|x l Hs IH Hx]; intros H; constructor; [apply IH; intros; apply H; cbn; auto|].
    rewrite List.Forall_forall in *. intros y Hy. apply H; cbn; auto.
  Qed.
  Lemma order_sorted : StronglySorted (fun a b => before deg a b = true) order.
  Proof.
    unfold order. pose proof ds_sorted as Hs. induction Hs as [|d l Hs IH Hd]; cbn; [constructor|].
    apply sorted_app; [|assumption|].
    - rewrite group_filter. eapply sorted_impl; [apply filter_sorted, batched_sorted|]. intros x y Hx Hy Hlt.
      apply List.filter_In in Hx as [_ Hx], Hy as [_ Hy]. apply Nat.eqb_eq in Hx, Hy. unfold before.
      rewrite Hx, Hy, Nat.eqb_refl, (proj2 (Nat.ltb_lt _ _) Hlt), orb_true_r. reflexivity.
    - intros x y Hx Hy. apply group_in in Hx as [_ Hx]. apply in_flat_map in Hy as [d' [Hd' Hy]]. apply group_in in Hy as [_ Hy].
      rewrite List.Forall_forall in Hd. apply Hd in Hd'. unfold before. rewrite Hx, Hy, (proj2 (Nat.ltb_lt _ _) Hd'). reflexivity.
  Qed.
  Lemma before_irrefl a : before deg a a = false.
  Proof. unfold before. rewrite !Nat.ltb_irrefl, andb_false_r. reflexivity. Qed.
  Lemma before_asym a b : before deg a b = true -> before deg b a = false.
  Proof.
    unfold before. rewrite orb_true_iff, andb_true_iff, orb_false_iff, andb_false_iff, !Nat.ltb_lt, !Nat.ltb_ge, Nat.eqb_eq, Nat.eqb_neq. lia.
  Qed.
  Lemma before_split (P : nat -> nat -> bool) L1 k L2 : StronglySorted (fun a b => P a b = true) (L1 ++ k :: L2) -> (forall a, P a a = false) -> (forall a b, P a b = true -> P b a = false) ->
    List.filter (fun a => P a k) (L1 ++ k :: L2) = L1.
  Proof.
    intros Hs Hir Has. induction L1 as [|x L1 IH]; cbn in *; inversion Hs as [|? ? Hs' Hx]; subst.
    - rewrite Hir. rewrite List.Forall_forall in Hx. clear Hs Hs'.
      induction L2 as [|y L2 IH]; cbn; [reflexivity|]. rewrite Has by (apply Hx; left; reflexivity). apply IH. intros z Hz. apply Hx. now right.
    - rewrite List.Forall_forall in Hx. rewrite (Hx k) by (apply in_elt). f_equal. now apply IH.
  Qed.
  Lemma total_of_filter count p n : total_of pub count p n = sum_of count (List.filter p (List.filter (fun k => negb (is_public pub k)) (seq 0 n))).
  Proof.
    induction n as [|n IH]; [reflexivity|]. rewrite seq_S, List.filter_app, List.filter_app, sum_of_app, <- IH. cbn [total_of Nat.add List.filter].
    unfold is_public at 1. destruct (existsb (Nat.eqb n) pub) eqn:E1; unfold is_public; cbn [negb]; rewrite ?E1; cbn [negb List.filter].
    - rewrite andb_false_r. cbn. lia.
    - rewrite andb_true_r. destruct (p n); unfold sum_of; cbn; lia.
  Qed.
  Lemma offset_filter count k : offset K pub deg count k = sum_of count (List.filter (fun a => before deg a k) B).
  Proof. apply total_of_filter. Qed.
  Lemma layer_offset_filter count k : layer_offset K pub deg count k = sum_of count (List.filter (fun a => (deg a =? deg k) && (a <? k)) B).
  Proof. apply total_of_filter. Qed.

  Lemma NoDup_sorted_lt l : StronglySorted lt l -> List.NoDup l.
  Proof.
    induction 1 as [|x l Hs IH Hx]; constructor; [|assumption]. intros Hin. rewrite List.Forall_forall in Hx. specialize (Hx _ Hin). lia.
  Qed.
  Lemma order_nodup : List.NoDup order.
  Proof.
    pose proof order_sorted as H. induction H as [|x l Hs IH Hx]; constructor; [|assumption]. intros Hin. rewrite List.Forall_forall in Hx. specialize (Hx _ Hin).
    rewrite before_irrefl in Hx. discriminate.
  Qed.
  Lemma in_order k : List.In k order <-> is_batched K pub k.
  Proof.
    unfold order. rewrite in_flat_map. split.
    - intros [d [_ H]]. now apply group_in in H.
    - intros H. exists (deg k). split; [apply ds_in; exists k; split; [now apply in_batched|reflexivity]|]. now apply group_in.
  Qed.
  Lemma order_perm : Permutation order B.
  Proof.
    apply Coq.Sorting.Permutation.NoDup_Permutation; [apply order_nodup|apply NoDup_sorted_lt, batched_sorted|]. intros x. now rewrite in_order, in_batched.
  Qed.
  Lemma filter_perm {A} (f : A -> bool) l1 l2 : Permutation l1 l2 -> Permutation (List.filter f l1) (List.filter f l2).
  Proof. induction 1; cbn; try (destruct (f x)); try (destruct (f y)); eauto using perm_nil, perm_skip, perm_swap, perm_trans. Qed.
  Lemma offset_order count L1 k L2 : order = L1 ++ k :: L2 -> offset K pub deg count k = sum_of count L1.
  Proof.
    intros E. rewrite offset_filter. rewrite <- (sum_of_perm count _ _ (filter_perm _ _ _ order_perm)).
    rewrite E. rewrite (before_split (before deg)); [reflexivity|rewrite <- E; apply order_sorted|apply before_irrefl|apply before_asym].
  Qed.
  Lemma layer_offset_group count L1 k L2 : group K pub deg (deg k) = L1 ++ k :: L2 -> layer_offset K pub deg count k = sum_of count L1.
  Proof.
    intros E. rewrite layer_offset_filter. rewrite group_filter in E.
    rewrite <- (before_split (fun a b => a <? b) L1 k L2).
    - rewrite <- E. f_equal. clear. induction B as [|x l IH]; cbn [List.filter]; [reflexivity|].
      destruct (deg x =? deg k); cbn [andb List.filter]; [|assumption]. destruct (x <? k); rewrite IH; reflexivity.
    - rewrite <- E. eapply sorted_impl; [apply filter_sorted, batched_sorted|]. intros. now apply Nat.ltb_lt.
    - apply Nat.ltb_irrefl.
    - intros a b H. apply Nat.ltb_lt in H. apply Nat.ltb_ge. lia.
  Qed.

  (** ** The commitments *)
  Lemma filter_flat_map {A} (f : A -> bool) (g : nat -> list A) l : List.filter f (flat_map g l) = flat_map (fun k => List.filter f (g k)) l.
  Proof. induction l; cbn; [reflexivity|]. now rewrite List.filter_app, IHl. Qed.
  Lemma filter_none {A} (f : A -> bool) l : (forall x, List.In x l -> f x = false) -> List.filter f l = [].
  Proof. induction l as [|x l IH]; cbn; intros H; [reflexivity|]. rewrite H by auto. apply IH. auto. Qed.
  Lemma filter_all {A} (f : A -> bool) l : (forall x, List.In x l -> f x = true) -> List.filter f l = l.
  Proof. induction l as [|x l IH]; cbn; intros H; [reflexivity|]. rewrite H by auto. f_equal. apply IH. auto. Qed.
  Lemma pow2_inj a b : 2 ^ a = 2 ^ b -> a = b.
  Proof. intros H. apply (Nat.pow_inj_r 2); [lia|assumption]. Qed.
  Section Polys.
    Context {A : Type} (len : A -> nat) (polys : nat -> list A).
    Hypothesis Hlen : forall k p, is_batched K pub k -> List.In p (polys k) -> len p = 2 ^ deg k.
    Lemma filter_layer d : List.filter (fun p => len p =? 2 ^ d) (flat_map polys B) = flat_map polys (group K pub deg d).
    Proof.
      rewrite filter_flat_map, group_filter.
      assert (H : forall k, List.In k B -> is_batched K pub k) by (intros; now apply in_batched). revert H.
      induction B as [|k l IH]; cbn [flat_map List.filter]; intros H; [reflexivity|].
      rewrite IH by (intros; apply H; right; assumption).
      destruct (deg k =? d) eqn:E; cbn [flat_map].
      - apply Nat.eqb_eq in E. rewrite filter_all; [reflexivity|]. intros p Hp. apply Nat.eqb_eq. rewrite (Hlen k) by (auto; apply H; left; reflexivity). now subst.
      - apply Nat.eqb_neq in E. rewrite filter_none; [reflexivity|]. intros p Hp. apply Nat.eqb_neq. rewrite (Hlen k) by (auto; apply H; left; reflexivity).
        intros Hp2. apply pow2_inj in Hp2. auto.
    Qed.
    Lemma committed_order : committed_polys K pub len polys = flat_map polys order.
    Proof.
      unfold committed_polys. rewrite (sort_groups len _ (map (fun d => 2 ^ d) ds)).
      - rewrite flat_map_concat_map, map_map, <- flat_map_concat_map. unfold order.
        induction ds as [|d l IH]; cbn [flat_map]; [reflexivity|]. rewrite flat_map_app, filter_layer, IH. reflexivity.
      - pose proof ds_sorted as Hs. induction Hs as [|d l Hs IH Hd]; cbn; constructor; [assumption|].
        apply List.Forall_forall. intros x Hx. apply in_map_iff in Hx as [e [<- He]]. rewrite List.Forall_forall in Hd. apply Hd in He.
        apply Nat.pow_lt_mono_r; lia.
      - intros p Hp. apply in_flat_map in Hp as [k [Hk Hp]]. apply in_map_iff. exists (deg k). split; [symmetry; apply Hlen; [now apply in_batched|assumption]|].
        apply ds_in. eauto.
    Qed.
    Lemma committed_layer d : layer len (committed_polys K pub len polys) (2 ^ d) = flat_map polys (group K pub deg d).
    Proof.
      rewrite committed_order. unfold layer, order. rewrite filter_flat_map.
      destruct (in_dec Nat.eq_dec d ds) as [Hd|Hd].
      - apply in_split in Hd as [l1 [l2 E]]. rewrite E, flat_map_app. cbn [flat_map]. rewrite !flat_map_app.
        assert (Hn : forall e k p, e <> d -> List.In k (group K pub deg e) -> List.In p (polys k) -> (len p =? 2 ^ d) = false).
        { intros e k p He Hk Hp. apply group_in in Hk as [Hb Hk]. apply Nat.eqb_neq. rewrite (Hlen k) by assumption. intros Hp2. apply pow2_inj in Hp2. congruence. }
        assert (Hnd := ds_nodup). rewrite E in Hnd. apply NoDup_remove_2 in Hnd.
        assert (Hz : forall l, ~ List.In d l -> flat_map (fun k => List.filter (fun p => len p =? 2 ^ d) (polys k)) (flat_map (group K pub deg) l) = []).
        { induction l as [|e l IH]; cbn; intros Hl; [reflexivity|]. rewrite flat_map_app, IH by tauto. rewrite app_nil_r.
          assert (Hk : forall k, List.In k (group K pub deg e) -> List.In k (group K pub deg e)) by auto. revert Hk.
          generalize (group K pub deg e) at 1 3. induction l0 as [|k l0 IH0]; cbn; intros Hk; [reflexivity|].
          rewrite IH0 by auto. rewrite filter_none; [reflexivity|]. intros p Hp. apply (Hn e k); auto. }
        rewrite !Hz by (intros Hin; apply Hnd, in_or_app; tauto).
        rewrite app_nil_r. cbn [app].
        assert (Hk : forall k, List.In k (group K pub deg d) -> List.In k (group K pub deg d)) by auto. revert Hk.
        generalize (group K pub deg d) at 1 3 4. induction l as [|k l IH]; cbn; intros Hk; [reflexivity|]. rewrite IH by auto. f_equal.
        apply filter_all. intros p Hp. apply Nat.eqb_eq. specialize (Hk k (or_introl eq_refl)). apply group_in in Hk as [Hb <-]. now apply Hlen.
      - assert (Hg : group K pub deg d = []).
        { destruct (group K pub deg d) as [|k l] eqn:E; [reflexivity|]. exfalso. apply Hd. apply ds_in. exists k.
          assert (H : List.In k (group K pub deg d)) by (rewrite E; left; reflexivity). apply group_in in H as [H1 H2]. split; [now apply in_batched|assumption]. }
        rewrite Hg. cbn [flat_map]. rewrite <- filter_flat_map. apply filter_none. intros p Hp. apply in_flat_map in Hp as [k [Hk Hp]]. fold order in Hk.
        apply in_order in Hk. apply Nat.eqb_neq. rewrite (Hlen k) by assumption. intros Hp2. apply pow2_inj in Hp2. apply Hd, ds_in. exists k. split; [now apply in_batched|assumption].
    Qed.
  End Polys.
  Lemma slice_flat_map {A} (polys : nat -> list A) L1 k L2 :
    slice (sum_of (fun k => length (polys k)) L1) (length (polys k)) (flat_map polys (L1 ++ k :: L2)) = polys k.
  Proof.
    rewrite flat_map_app. cbn [flat_map]. unfold slice.
    assert (E : sum_of (fun k => length (polys k)) L1 = length (flat_map polys L1)).
    { clear. induction L1 as [|x l IH]; cbn; [reflexivity|]. rewrite app_length, <- IH. reflexivity. }
    rewrite E, drop_app, take_app. reflexivity.
  Qed.

  (** ** The indices of the prover *)
  Section Indices.
    Context (count : nat -> nat).
    Definition put (st : layout) (k : nat) : layout := mkLayout (upd (l_bmt st) k (l_next_bmt st)) (upd (l_poly st) k (l_next_poly st)) (l_next_bmt st + count k) (l_next_poly st + count k).
    Lemma fold_visit d l st : fold_left (visit pub deg count d) l st = fold_left put (List.filter (fun k => negb (is_public pub k)) (List.filter (fun k => deg k =? d) l)) st.
    Proof.
      revert st. induction l as [|k l IH]; intros st; cbn [fold_left List.filter]; [reflexivity|]. rewrite IH. unfold visit.
      destruct (deg k =? d); cbn [List.filter]; [|rewrite andb_false_r; reflexivity]. rewrite andb_true_r. destruct (is_public pub k); reflexivity.
    Qed.
    Lemma fold_put_other l st k : ~ List.In k l -> l_bmt (fold_left put l st) k = l_bmt st k /\ l_poly (fold_left put l st) k = l_poly st k.
    Proof.
      revert st. induction l as [|x l IH]; intros st H; [split; reflexivity|]. cbn [fold_left]. destruct (IH (put st x)) as [H1 H2]; [cbn in H; tauto|].
      rewrite H1, H2. cbn. unfold upd. rewrite (proj2 (Nat.eqb_neq _ _)); [split; reflexivity|]. cbn in H; intuition.
    Qed.
    Lemma fold_put_next l st : l_next_bmt (fold_left put l st) = l_next_bmt st + sum_of count l /\ l_next_poly (fold_left put l st) = l_next_poly st + sum_of count l.
    Proof.
      revert st. induction l as [|x l IH]; intros st; cbn [fold_left]; [rewrite sum_of_nil; cbn; lia|]. destruct (IH (put st x)) as [-> ->]. rewrite sum_of_cons. cbn. lia.
    Qed.
    Lemma fold_put_at L1 k L2 st : ~ List.In k L2 ->
      l_bmt (fold_left put (L1 ++ k :: L2) st) k = Some (l_next_bmt st + sum_of count L1) /\ l_poly (fold_left put (L1 ++ k :: L2) st) k = Some (l_next_poly st + sum_of count L1).
    Proof.
      intros H. rewrite fold_left_app. cbn [fold_left]. destruct (fold_put_other L2 (put (fold_left put L1 st) k) k H) as [-> ->].
      destruct (fold_put_next L1 st) as [H1 H2]. cbn. unfold upd. rewrite Nat.eqb_refl, H1, H2. split; reflexivity.
    Qed.
    Definition restart (st : layout) : layout := mkLayout (l_bmt st) (l_poly st) 0 (l_next_poly st).
    Lemma visit_degree_put st d : visit_degree K pub deg count st d = fold_left put (group K pub deg d) (restart st).
    Proof. unfold visit_degree, group. apply fold_visit. Qed.
    Lemma degrees_other l st k : ~ List.In (deg k) l ->
      l_bmt (fold_left (visit_degree K pub deg count) l st) k = l_bmt st k /\ l_poly (fold_left (visit_degree K pub deg count) l st) k = l_poly st k.
    Proof.
      revert st. induction l as [|d l IH]; intros st H; [split; reflexivity|]. cbn [fold_left].
      destruct (IH (visit_degree K pub deg count st d)) as [-> ->]; [cbn in H; tauto|]. rewrite visit_degree_put.
      apply (fold_put_other (group K pub deg d) (restart st) k). rewrite group_in. cbn in H. intuition.
    Qed.
    Lemma degrees_next l st : l_next_poly (fold_left (visit_degree K pub deg count) l st) = l_next_poly st + sum_of count (flat_map (group K pub deg) l).
    Proof.
      revert st. induction l as [|d l IH]; intros st; [rewrite sum_of_nil; cbn; lia|]. cbn [fold_left flat_map]. rewrite IH, sum_of_app, visit_degree_put.
      rewrite (proj2 (fold_put_next _ _)). cbn. lia.
    Qed.
    Lemma indices_at k : is_batched K pub k ->
      poly_start (indices_new K pub deg count) k = Some (offset K pub deg count k) /\
      bmt_start (indices_new K pub deg count) k = Some (layer_offset K pub deg count k).
    Proof.
      intros Hk. assert (Hd : List.In (deg k) ds) by (apply ds_in; exists k; split; [now apply in_batched|reflexivity]).
      assert (Hg : List.In k (group K pub deg (deg k))) by now apply group_in.
      apply in_split in Hd as [l1 [l2 E]]. apply in_split in Hg as [g1 [g2 G]].
      assert (Hn2 : ~ List.In k g2).
      { assert (N : List.NoDup (group K pub deg (deg k))) by (rewrite group_filter; apply NoDup_sorted_lt, filter_sorted, batched_sorted).
        rewrite G in N. apply NoDup_remove_2 in N. intros H; apply N, in_or_app; auto. }
      assert (Hl2 : ~ List.In (deg k) l2).
      { pose proof ds_nodup as N. rewrite E in N. apply NoDup_remove_2 in N. intros H; apply N, in_or_app; auto. }
      unfold indices_new. cbn [poly_start bmt_start]. rewrite E, fold_left_app. cbn [fold_left].
      set (st0 := mkLayout _ _ 0 0).
      destruct (degrees_other l2 (visit_degree K pub deg count (fold_left (visit_degree K pub deg count) l1 st0) (deg k)) k Hl2) as [-> ->].
      rewrite visit_degree_put, G. destruct (fold_put_at g1 k g2 (restart (fold_left (visit_degree K pub deg count) l1 st0)) Hn2) as [-> ->].
      cbn [l_next_bmt l_next_poly restart]. rewrite degrees_next.
      rewrite (layer_offset_group count g1 k g2 G).
      rewrite (offset_order count (flat_map (group K pub deg) l1 ++ g1) k (g2 ++ flat_map (group K pub deg) l2)).
      - rewrite sum_of_app. cbn. split; reflexivity.
      - unfold order. rewrite E, flat_map_app. cbn [flat_map]. rewrite G, <- !app_assoc. reflexivity.
    Qed.
  End Indices.
End Layout.
