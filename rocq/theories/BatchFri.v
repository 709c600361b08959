(** Proofs about the instances and openings of batched FRI. *)
From stdpp Require Import list.
From Coq Require Import Permutation Sorted Lia PeanoNat Bool List.
From Verif Require Import Word BatchModel BatchSpec BatchProofs.
Open Scope nat_scope.

Section Merge.
  Context (K : nat) (pub : list nat) (deg : nat -> nat) (count : nat -> nat -> nat).
  Notation ds := (sort_degree_bits K pub deg).
  (** The polynomials opened for table [k], at their places in the oracles *)
  Definition placed (k j : nat) : list (nat * nat) :=
    map (fun '(o, i) => (o, i + offset K pub deg (count o) k)) (fri_instance (fun o => count o k) j).
  Definition running (start : nat -> nat) (l : list nat) : Prop :=
    forall L1 k L2, l = L1 ++ k :: L2 -> forall o, offset K pub deg (count o) k = start o + sum_of (count o) L1.
  Lemma merge_at ks start : running start ks ->
    (forall j, fst (merge_fri_instances count ks start) j = flat_map (fun k => placed k j) ks) /\
    (forall o, snd (merge_fri_instances count ks start) o = start o + sum_of (count o) ks).
  Proof.
    revert start. induction ks as [|k ks IH]; intros start H.
    - cbn [merge_fri_instances fst snd flat_map]. split; [reflexivity|]. intros o. rewrite sum_of_nil. lia.
    - cbn [merge_fri_instances]. specialize (IH (fun o => start o + count o k)).
      destruct (merge_fri_instances count ks (fun o => start o + count o k)) as [rest start'] eqn:E. cbn [fst snd] in *.
      destruct IH as [IH1 IH2].
      { intros L1 k' L2 -> o. rewrite (H (k :: L1) k' L2 eq_refl o), sum_of_cons. lia. }
      split.
      + intros j. cbn [flat_map]. rewrite IH1. f_equal. unfold placed. apply map_ext. intros [o i]. rewrite (H [] k ks eq_refl o), sum_of_nil. do 2 f_equal. lia.
      + intros o. rewrite IH2, sum_of_cons. lia.
  Qed.
  Lemma merge_groups_at l start : (forall d, List.In d l -> group K pub deg d <> []) -> running start (flat_map (group K pub deg) l) ->
    exists ins, merge_groups K pub deg count l start = Some ins /\ length ins = length l /\
      forall i d, l !! i = Some d -> exists f, ins !! i = Some f /\ forall j, f j = flat_map (fun k => placed k j) (group K pub deg d).
  Proof.
    revert start. induction l as [|d l IH]; intros start Hne H.
    - exists []. split; [reflexivity|]. split; [reflexivity|]. intros i d Hd. destruct i; discriminate.
    - cbn [merge_groups flat_map] in *.
      assert (Hr : running start (group K pub deg d)).
      { intros L1 k L2 E o. apply (H L1 k (L2 ++ flat_map (group K pub deg) l)). rewrite E, <- app_assoc. reflexivity. }
      destruct (merge_at _ _ Hr) as [H1 H2].
      destruct (group K pub deg d) as [|g gs] eqn:Eg; [exfalso; apply (Hne d); [now left|assumption]|].
      destruct (merge_fri_instances count (g :: gs) start) as [f start'] eqn:Em. cbn [fst snd] in *.
      destruct (IH start') as [ins [E1 [E2 E3]]].
      + intros e He. apply Hne. now right.
      + intros L1 k L2 E o. rewrite (H ((g :: gs) ++ L1) k L2) by (rewrite E, <- app_assoc; reflexivity).
        rewrite H2, sum_of_app. lia.
      + rewrite E1. exists (f :: ins). split; [reflexivity|]. split; [cbn; congruence|]. intros [|i] e He; cbn in He.
        * injection He as <-. exists f. split; [reflexivity|]. rewrite Eg. assumption.
        * exact (E3 i e He).
  Qed.
  Lemma group_nonempty d : List.In d ds -> group K pub deg d <> [].
  Proof.
    intros H Hg. apply ds_in in H as [k [Hk <-]]. apply in_batched in Hk.
    assert (Hi : List.In k (group K pub deg (deg k))) by now apply group_in. rewrite Hg in Hi. destruct Hi.
  Qed.
  Lemma batch_instances_at : exists ins, batch_fri_instances K pub deg count = Some ins /\ length ins = length ds /\
      forall i d, ds !! i = Some d -> exists f, ins !! i = Some f /\ forall j, f j = flat_map (fun k => placed k j) (group K pub deg d).
  Proof.
    apply merge_groups_at; [apply group_nonempty|]. intros L1 k L2 E o. rewrite (offset_order K pub deg (count o) L1 k L2); [lia|exact E].
  Qed.
  Lemma fri_openings_group {V} (proofs : nat -> opening_set V) d j :
    fri_openings K pub deg proofs d j = flat_map (fun k => to_fri_openings (proofs k) j) (group K pub deg d).
  Proof.
    unfold fri_openings, group. induction (all_kinds K) as [|k l IH]; [reflexivity|]. cbn [flat_map List.filter].
    destruct (deg k =? d); cbn [andb List.filter]; [|exact IH]. destruct (is_public pub k); cbn [negb flat_map]; [exact IH|]. rewrite IH. reflexivity.
  Qed.
End Merge.

Lemma flat_map_split {V} (f g : nat -> list V) l : (forall k, List.In k l -> length (f k) = length (g k)) -> flat_map f l = flat_map g l ->
  forall k, List.In k l -> f k = g k.
Proof.
  induction l as [|x l IH]; intros Hl E k Hk; [destruct Hk|]. cbn [flat_map] in E.
  apply app_inj_1 in E as [E1 E2]; [|apply Hl; now left].
  destruct Hk as [<-|Hk]; [assumption|]. apply IH; auto. intros; apply Hl; now right.
Qed.
Lemma flat_map_same {V} (f g : nat -> list V) l : (forall k, List.In k l -> f k = g k) -> flat_map f l = flat_map g l.
Proof. induction l as [|x l IH]; intros H; [reflexivity|]. cbn [flat_map]. rewrite H by now left. rewrite IH; [reflexivity|]. intros; apply H; now right. Qed.

(** ** What a table's part of the FRI equation says *)
Section Values.
  Context {V A : Type} (eval : A -> nat -> nat -> V) (committed : nat -> nat -> A).
  Lemma placed_values (K : nat) (pub : list nat) (deg : nat -> nat) (count : nat -> nat -> nat) k j d : j < 3 ->
    map (fun '(o, n) => eval (committed o n) d j) (placed K pub deg count k j) =
    to_fri_openings (own_openings eval committed d (fun o => offset K pub deg (count o) k) (fun o => count o k)) j.
  Proof.
    intros Hj. unfold placed. rewrite map_map.
    assert (H : forall o n, map (fun x : nat * nat => let '(o, n) := let '(o, i) := x in (o, i + offset K pub deg (count o) k) in eval (committed o n) d j) (polys_of o n) =
      map (fun i => eval (committed o (offset K pub deg (count o) k + i)) d j) (seq 0 n)).
    { intros o n. unfold polys_of. rewrite map_map. apply map_ext. intros i. do 2 f_equal. apply Nat.add_comm. }
    unfold fri_instance, to_fri_openings, own_openings. cbn [local_values next_values ctl_zs ctl_zs_next ctl_zs_last quotient_polys].
    destruct j as [|[|[|j]]]; [| | |lia]; rewrite ?map_app, ?H; reflexivity.
  Qed.
  Lemma own_lengths d off n : let s := own_openings eval committed d off n in
    length (local_values s) = n 0 /\ length (next_values s) = n 0 /\ length (ctl_zs s) = n 1 /\ length (ctl_zs_next s) = n 1 /\ length (ctl_zs_last s) = n 1 /\ length (quotient_polys s) = n 2.
  Proof. cbn. rewrite !map_length, !seq_length. auto 10. Qed.
End Values.
Lemma to_fri_inj {V} (s t : opening_set V) : length (local_values s) = length (local_values t) -> length (next_values s) = length (next_values t) -> length (ctl_zs s) = length (ctl_zs t) ->
  (forall j, j < 3 -> to_fri_openings s j = to_fri_openings t j) -> s = t.
Proof.
  intros H1 H2 H3 H. destruct s, t. cbn in *. pose proof (H 0 ltac:(lia)) as E0. pose proof (H 1 ltac:(lia)) as E1. pose proof (H 2 ltac:(lia)) as E2. cbn in *.
  apply app_inj_1 in E0 as [-> E0]; [|assumption]. apply app_inj_1 in E0 as [-> ->]; [|assumption]. apply app_inj_1 in E1 as [-> ->]; [|assumption]. now subst.
Qed.

Lemma sum_of_ext f g l : (forall k, List.In k l -> f k = g k) -> sum_of f l = sum_of g l.
Proof. induction l as [|x l IH]; intros H; [reflexivity|]. rewrite !sum_of_cons, H by now left. rewrite IH; [reflexivity|]. intros; apply H; now right. Qed.
Lemma offset_ext K pub deg f g k : (forall a, is_batched K pub a -> f a = g a) -> offset K pub deg f k = offset K pub deg g k.
Proof.
  intros H. rewrite !offset_filter. apply sum_of_ext. intros a Ha. apply List.filter_In in Ha as [Ha _]. apply H. now apply in_batched.
Qed.

(** ** The FRI equation of all tables *)
Section Check.
  Context {V A : Type} (K : nat) (pub : list nat) (deg : nat -> nat) (eval : A -> nat -> nat -> V) (committed : nat -> nat -> A).
  Definition fri_check (count : nat -> nat -> nat) (proofs : nat -> opening_set V) : Prop :=
    exists ins, batch_fri_instances K pub deg count = Some ins /\
    forall i d f, sort_degree_bits K pub deg !! i = Some d -> ins !! i = Some f -> forall j, j < 3 ->
      fri_openings K pub deg proofs d j = map (fun '(o, n) => eval (committed o n) d j) (f j).
  Definition own (count : nat -> nat -> nat) (k : nat) : opening_set V :=
    own_openings eval committed (deg k) (fun o => offset K pub deg (count o) k) (fun o => count o k).
  Lemma fri_check_flat count proofs : fri_check count proofs <-> forall d j, List.In d (sort_degree_bits K pub deg) -> j < 3 ->
    flat_map (fun k => to_fri_openings (proofs k) j) (group K pub deg d) = flat_map (fun k => to_fri_openings (own count k) j) (group K pub deg d).
  Proof.
    assert (Hp : forall d j, j < 3 -> map (fun '(o, n) => eval (committed o n) d j) (flat_map (fun k => placed K pub deg count k j) (group K pub deg d)) =
      flat_map (fun k => to_fri_openings (own count k) j) (group K pub deg d)).
    { intros d j Hj. assert (Hg : forall k, List.In k (group K pub deg d) -> deg k = d) by (intros k Hk; now apply group_in in Hk). revert Hg.
      induction (group K pub deg d) as [|k l IH]; intros Hg; [reflexivity|]. cbn [flat_map]. rewrite map_app, IH by (intros; apply Hg; now right). f_equal.
      unfold own. rewrite (Hg k) by now left. now apply placed_values. }
    destruct (batch_instances_at K pub deg count) as [ins [E1 [E2 E3]]]. split.
    - intros [ins' [E1' H]] d j Hd Hj. rewrite E1 in E1'. injection E1' as <-. apply elem_of_list_In, elem_of_list_lookup in Hd as [i Hi].
      destruct (E3 i d Hi) as [f [Hf Hfj]]. specialize (H i d f Hi Hf j Hj). rewrite fri_openings_group, Hfj, Hp in H by assumption. exact H.
    - intros H. exists ins. split; [assumption|]. intros i d f Hi Hf j Hj. destruct (E3 i d Hi) as [f' [Hf' Hfj]]. rewrite Hf in Hf'. injection Hf' as <-.
      rewrite fri_openings_group, Hfj, Hp by assumption. apply H; [|assumption]. apply elem_of_list_In, elem_of_list_lookup. eauto.
  Qed.
  Lemma fri_check_own count proofs : (forall k, is_batched K pub k -> forall j, to_fri_openings (proofs k) j = to_fri_openings (own count k) j) -> fri_check count proofs.
  Proof. intros H. apply fri_check_flat. intros d j Hd Hj. apply flat_map_same. intros k Hk. apply group_in in Hk as [Hk _]. auto. Qed.
  Lemma fri_check_sound count proofs : fri_check count proofs ->
    (forall k, is_batched K pub k -> length (local_values (proofs k)) = count 0 k /\ length (next_values (proofs k)) = count 0 k /\
       length (ctl_zs (proofs k)) = count 1 k /\ length (ctl_zs_next (proofs k)) = count 1 k /\ length (ctl_zs_last (proofs k)) = count 1 k /\ length (quotient_polys (proofs k)) = count 2 k) ->
    forall k, is_batched K pub k -> proofs k = own count k.
  Proof.
    intros H Hs k Hk. pose proof (own_lengths eval committed) as Ho. cbn zeta in Ho.
    assert (Hd : List.In (deg k) (sort_degree_bits K pub deg)) by (apply ds_in; exists k; split; [now apply in_batched|reflexivity]).
    pose proof (Hs k Hk) as Hsk. pose proof (Ho (deg k) (fun o => offset K pub deg (count o) k) (fun o => count o k)) as Hok. fold (own count k) in Hok.
    apply to_fri_inj; [destruct Hsk as (? & ? & ? & _); destruct Hok as (? & ? & ? & _); congruence..|].
    intros j Hj. rewrite fri_check_flat in H. specialize (H _ j Hd Hj).
    apply (flat_map_split _ _ _) with (k := k) in H; [exact H| |now apply group_in].
    intros k' Hk'. apply group_in in Hk' as [Hk' _]. destruct (Hs k' Hk') as (a & b & c & e & f & g).
    destruct (Ho (deg k') (fun o => offset K pub deg (count o) k') (fun o => count o k')) as (a' & b' & c' & e' & f' & g'). fold (own count k') in *.
    unfold to_fri_openings. destruct j as [|[|[|j]]]; [| | |lia]; rewrite ?app_length; lia.
  Qed.
End Check.

(** ** Chunks *)
Lemma chunks_from_at {V} n fuel (l : list V) m : 0 < n -> length l = m * n -> m <= fuel ->
  length (chunks_from fuel n l) = m /\ forall i, i < m -> chunks_from fuel n l !! i = Some (firstn n (skipn (i * n) l)).
Proof.
  intros Hn. revert l m. induction fuel as [|fuel IH]; intros l m Hl Hm.
  - assert (m = 0) as -> by lia. cbn. split; [reflexivity|intros; lia].
  - cbn [chunks_from]. destruct l as [|x l'] eqn:El.
    + cbn in Hl. assert (m = 0) as -> by nia. split; [reflexivity|intros; lia].
    + rewrite <- El in *. assert (Hm0 : m <> 0) by (intros ->; subst; cbn in Hl; lia).
      destruct m as [|m]; [lia|]. destruct (IH (skipn n l) m) as [I1 I2].
      * rewrite skipn_length. lia.
      * lia.
      * split; [cbn [length]; lia|]. intros [|i] Hi; [reflexivity|]. change ((firstn n l :: chunks_from fuel n (skipn n l)) !! S i) with (chunks_from fuel n (skipn n l) !! i).
        rewrite I2 by lia. do 2 f_equal. rewrite drop_drop. reflexivity.
Qed.
Lemma chunks_at {V} n (l : list V) m : 0 < n -> length l = m * n ->
  length (chunks n l) = m /\ forall i, i < m -> chunks n l !! i = Some (firstn n (skipn (i * n) l)).
Proof. intros Hn Hl. apply chunks_from_at; [assumption|assumption|nia]. Qed.

Lemma combine_zip {A B} (l : list A) (k : list B) : combine l k = zip l k.
Proof. revert k. induction l as [|x l IH]; intros [|y k]; cbn; congruence. Qed.
Lemma verify_quotient_spec {V} (eqb : V -> V -> bool) (S : system V) k s : (forall x y, eqb x y = true <-> x = y) -> 0 < s_factor S k -> valid_shape S k s = true ->
  (verify_quotient eqb S k s = true <-> quotient_identity S k s).
Proof.
  intros Heq Hf Hv. unfold valid_shape in Hv. rewrite !andb_true_iff, !Nat.eqb_eq in Hv. destruct Hv as [[[[[H1 H2] H3] H4] H5] H6].
  unfold verify_quotient, quotient_identity. rewrite H1, H2, H3, H4, !Nat.eqb_refl, !Nat.leb_refl. cbn [andb].
  assert (F1 : firstn (s_ctls S k) (ctl_zs s) = ctl_zs s) by (apply take_ge; lia).
  assert (F2 : firstn (s_ctls S k) (ctl_zs_next s) = ctl_zs_next s) by (apply take_ge; lia).
  cbn zeta. rewrite F1, F2.
  destruct (chunks_at (s_factor S k) (quotient_polys s) (s_challenges S) Hf H6) as [C1 C2]. rewrite C1, forallb_forall.
  set (v := s_vanishing S k _ _ _ _). split.
  - intros H i Hi. specialize (C2 i Hi).
    assert (Hin : List.In (i, firstn (s_factor S k) (skipn (i * s_factor S k) (quotient_polys s))) (combine (seq 0 (s_challenges S)) (chunks (s_factor S k) (quotient_polys s)))).
    { apply elem_of_list_In, elem_of_list_lookup. exists i. rewrite combine_zip. apply lookup_zip_with_Some. eexists _, _. split; [reflexivity|]. split; [|exact C2]. apply lookup_seq. lia. }
    specialize (H _ Hin). cbn in H. destruct (v !! i) as [x|]; [|discriminate]. apply Heq in H. now subst.
  - intros H [i c] Hin. apply elem_of_list_In, elem_of_list_lookup in Hin as [n Hn]. 
    rewrite combine_zip in Hn. apply lookup_zip_with_Some in Hn as [a [b [E [Ha Hb]]]]. injection E as <- <-. apply lookup_seq in Ha as [-> Hi]. cbn [Nat.add] in *.
    rewrite (C2 n Hi) in Hb. injection Hb as <-. rewrite H by assumption. now apply Heq.
Qed.
