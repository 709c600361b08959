(** Properties C40-C51: the SDK. The Poseidon2 sponge over bytes is an arbitrary function [H]
    throughout: no theorem uses anything about it. *)
From Coq Require Import Sorting.Sorted Sorting.Permutation.
From Verif Require Import Word SdkModel SdkSpec MerkleProofs EventProofs TapeProofs.

(** A toy hash for the concrete instances: length and a polynomial of the bytes. *)
Definition toyH (l : list Z) : digest := le_bytes 32 (fold_left (fun a b => (a * 257 + b + 1) mod (2 ^ 255 - 19)) l 7).

(** ** C40 *)
(** For leaves sorted by address the root of the address-prefix tree is computed, in every build,
    within [length l + 1] rounds, unless all leaves sit at exactly two addresses that differ
    in the top bit (missing from the full property; see the refutation). *)
Theorem C40_merkleize_partial : forall H checks l fuel,
  SortedLeaves l -> LeafRange l -> ~ TwoHalves l -> (length l < fuel)%nat ->
  exists d, merkleize H checks fuel l = Done d /\ PrefixRoot (two_to_one H) l d /\
    forall d', PrefixRoot (two_to_one H) l d' -> d' = d.
Proof.
  intros H checks l fuel S R N L. destruct (merkleize_prefix_root H checks fuel l S R N L) as (d & E & P).
  exists d. split; [auto|]. split; [auto|]. intros d' P'. eapply prefix_root_unique; eauto.
Qed.
(** The empty list and a singleton. *)
Theorem C40_base : forall H checks fuel a d,
  merkleize H checks fuel [] = Done default_id /\ merkleize H checks fuel [(a, d)] = Done d.
Proof. intros. destruct fuel; auto. Qed.
(** Two leaves whose addresses differ in the top bit: with overflow checks the shift by 64
    panics; without them (guest and release builds) the loop never ends. *)
Theorem C40_top_bit_refuted : forall H lo hi d1 d2 fuel,
  0 <= lo < 2 ^ 63 -> 2 ^ 63 <= hi < 2 ^ 64 ->
  merkleize H true (S (S fuel)) [(lo, d1); (hi, d2)] = Panicked /\
  merkleize H false fuel [(lo, d1); (hi, d2)] = OutOfFuel /\
  SortedLeaves [(lo, d1); (hi, d2)] /\ PrefixRoot (two_to_one H) [(lo, d1); (hi, d2)] (two_to_one H d1 d2).
Proof.
  intros H lo hi d1 d2 fuel Hlo Hhi. destruct (two_halves_panics H fuel lo hi d1 d2 Hlo Hhi) as (A & B).
  split; [auto|]. split; [auto|]. split.
  - intros i j x y L Ex Ey. destruct i as [|[|i]], j as [|[|j]]; cbn in *; try lia; try discriminate.
    injection Ex as <-. injection Ey as <-. cbn. lia.
  - change ([(lo, d1); (hi, d2)]) with ([(lo, d1)] ++ [(hi, d2)]).
    apply (PRSplit _ [(lo, d1)] [(hi, d2)] 63 0); try congruence; try lia.
    + constructor; [|constructor]. cbn. rewrite Z.div_small; lia.
    + constructor; [|constructor]. cbn [fst]. Z.div_mod_to_equations. lia.
    + apply (PRBucket _ _ lo); [congruence|repeat constructor|constructor].
    + apply (PRBucket _ _ hi); [congruence|repeat constructor|constructor].
Qed.
(** The leaves of the SDK's own unit test (merkle.rs:77-87), any hash. *)
Example C40_instance : forall H a b c d,
  merkleize H true 5 [(0x10, a); (0x11, b); (0x11, c); (0x111, d)] =
    Done (two_to_one H (two_to_one H a (two_to_one H b c)) d) /\
  SortedLeaves [(0x10, a); (0x11, b); (0x11, c); (0x111, d)] /\
  ~ TwoHalves [(0x10, a); (0x11, b); (0x11, c); (0x111, d)].
Proof.
  intros. split; [reflexivity|]. split.
  - intros i j x y L Ex Ey.
    do 4 (destruct i as [|i]; [cbn in Ex; injection Ex as <-; do 4 (destruct j as [|j]; [cbn in Ey; try lia; injection Ey as <-; cbn; lia|]); cbn in Ey; discriminate|]).
    cbn in Ex. discriminate.
  - intros (lo & hi & B & I & J & F). cbn in J. set_solver by lia.
Qed.

(** ** C41 *)
(** The leaves that reach merkleize are in byte order of the addresses, not in u64 order: two events at
    addresses 256 and 1. *)
Theorem C41_sorted_refuted : forall H, exists es : list event,
  Forall (fun e => length (ev_addr e) = 8%nat /\ Forall u8 (ev_addr e)) es /\
  ~ SortedLeaves (map (fun p => leaf H (fst p)) (canonical_ordering (ordered_new H es))).
Proof.
  intros H. exists [Ev [1;0;0;0;0;0;0;0] default_id [] Read; Ev [0;1;0;0;0;0;0;0] default_id [] Read].
  split; [repeat constructor; unfold u8; lia|].
  intros S. specialize (S 0%nat 1%nat _ _ ltac:(lia) eq_refl eq_refl). cbn in S. lia.
Qed.
(** Consequence: the commitment to three events is not the root of the address-prefix tree over them. *)
Theorem C41_root_refuted : forall H, exists e1 e2 e3 : event,
  let h e := canonical_hash H (from_event H e) in
  let two := two_to_one H in
  ordered_canonical_hash H true 10 (ordered_new H [e1; e2; e3]) = Done (two (two (h e2) (h e1)) (h e3)) /\
  PrefixRoot two (map (leaf H) (map (from_event H) [e1; e2; e3])) (two (h e1) (two (h e2) (h e3))).
Proof.
  intros H. exists (Ev [1;0;0;0;0;0;0;0] default_id [] Read), (Ev [0;1;0;0;0;0;0;0] default_id [] Read), (Ev [1;1;0;0;0;0;0;0] default_id [] Read).
  cbv zeta. split; [reflexivity|]. cbn [map].
  set (l1 := leaf H _). set (l2 := leaf H _). set (l3 := leaf H _).
  change [l1; l2; l3] with ([l1] ++ [l2; l3]).
  apply (PRSplit _ [l1] [l2; l3] 8 0); try congruence; try lia; try (repeat constructor; fail).
  - apply (PRBucket _ _ 1); [congruence|repeat constructor|constructor].
  - change [l2; l3] with ([l2] ++ [l3]).
    apply (PRSplit _ [l2] [l3] 0 128); try congruence; try lia; try (repeat constructor; fail).
    + apply (PRBucket _ _ 256); [congruence|repeat constructor|constructor].
    + apply (PRBucket _ _ 257); [congruence|repeat constructor|constructor].
Qed.
(** What does hold: the leaves are in the canonical (byte-lexicographic) order, a permutation of the
    emitted events, and so the commitment does not depend on the order of emission. *)
Theorem C41_order_independent_partial : forall H checks fuel es es',
  Permutation es es' ->
  ordered_canonical_hash H checks fuel (ordered_new H es) = ordered_canonical_hash H checks fuel (ordered_new H es').
Proof.
  intros H checks fuel es es' P. unfold ordered_canonical_hash.
  rewrite <- !(map_map fst (leaf H)). do 2 f_equal. apply canonical_unique.
  unfold ordered_new. rewrite !map_map. cbn [snd]. apply Permutation_map. auto.
Qed.
Theorem C41_canonical_sorted_partial : forall H es,
  let l := map fst (canonical_ordering (ordered_new H es)) in
  Permutation l (map (from_event H) es) /\ Sorted ce_le l.
Proof.
  intros H es. cbv zeta. split; [|apply canonical_sorted]. rewrite canonical_fst_perm.
  unfold ordered_new. rewrite map_map. auto.
Qed.
(** It is sorted by u64 when every address is a single low byte (all others 0). *)
Example C41_instance : exists H es,
  ordered_canonical_hash H true 10 (ordered_new H es) = ordered_canonical_hash H true 10 (ordered_new H (rev es)) /\
  length es = 3%nat /\ es <> rev es.
Proof.
  exists toyH, [Ev [4;0;0;0;0;0;0;0] default_id [1] Read; Ev [2;0;0;0;0;0;0;0] default_id [2] Write; Ev [3;0;0;0;0;0;0;0] default_id [3] Write].
  split; [apply C41_order_independent_partial, Permutation_rev|]. split; [reflexivity|intros E; vm_compute in E; discriminate].
Qed.

(** ** C42 *)
(** The hints attached to the canonical order form a permutation, and the canonical event at the
    position hinted in entry i is the i-th emitted event. *)
Theorem C42_hints : forall H es, Z.of_nat (length es) <= 2 ^ 32 ->
  exists h, canonical_order_temporal_hints (ordered_new H es) = Some h /\
    length h = length es /\ Permutation (map snd h) (seq 0 (length es)) /\
    Permutation (map fst h) (map (from_event H) es) /\ Sorted ce_le (map fst h) /\
    forall i e, es !! i = Some e -> exists k,
      map snd h !! i = Some k /\ map fst h !! k = Some (from_event H e).
Proof.
  intros H es L. assert (Lo : length (ordered_new H es) = length es) by apply map_length.
  destruct (hints_spec (ordered_new H es)) as (h & E & F & Lh & A); [rewrite Lo; lia|].
  exists h. split; [auto|]. split; [lia|].
  pose proof (hints_perm (ordered_new H es) h ltac:(rewrite Lo; lia) E) as P. rewrite Lo in P.
  split; [auto|]. split; [|split].
  - rewrite F, canonical_fst_perm. unfold ordered_new. rewrite map_map. auto.
  - rewrite F. apply canonical_sorted.
  - intros i e Ei. destruct (A i (from_event H e)) as (k & K1 & K2 & _); [|eauto].
    unfold ordered_new. rewrite map_map. cbn [snd]. rewrite list_lookup_fmap, Ei. auto.
Qed.
(** The temporal list with canonical hints carries the inverse permutation: entry k of it hints at
    the emission index of the k-th canonical event. *)
Theorem C42_inverse : forall H es, Z.of_nat (length es) <= 2 ^ 32 ->
  exists h g, canonical_order_temporal_hints (ordered_new H es) = Some h /\
    temporal_order_canonical_hints (ordered_new H es) = Some g /\
    map fst g = es /\
    forall i k, (i < length es)%nat -> map snd h !! i = Some k <-> (k < length es)%nat /\ map snd g !! k = Some i.
Proof.
  intros H es L. assert (Lo : length (ordered_new H es) = length es) by apply map_length.
  destruct (hints_spec (ordered_new H es)) as (h & E & F & Lh & A); [rewrite Lo; lia|].
  pose proof (canonical_length (ordered_new H es)) as Lc. pose proof (canonical_snd_perm (ordered_new H es)) as Pc.
  assert (G : forall (o : ordered_events) (c : list (cevent * nat)), length o = length c ->
    Forall (fun x => Z.of_nat (snd x) < 4294967296) c ->
    exists g, mapM (fun p => i ← u32_of (snd (snd p)); Some (fst (fst p), i)) (combine o c) = Some g /\
      map fst g = map fst o /\ map snd g = map snd c).
  { induction o as [|[e ce] o IH]; intros [|[c n] cs] Lx Fx; try discriminate Lx.
    - exists []. auto.
    - cbn [length] in Lx. inversion Fx as [|? ? Hn Fx']; subst. cbn [snd] in Hn.
      destruct (IH cs) as (g & Eg & G1 & G2); [lia|auto|]. exists ((e, n) :: g).
      assert (En : u32_of n = Some n) by (unfold u32_of; replace (Z.of_nat n <? 4294967296) with true by lia; auto).
      cbn [combine mapM fst snd]. rewrite En. cbn [mbind option_bind]. rewrite Eg. cbn. rewrite G1, G2. auto. }
  destruct (G (ordered_new H es) (canonical_ordering (ordered_new H es))) as (g & Eg & G1 & G2).
  { lia. }
  { apply List.Forall_forall. intros x I. apply (in_map snd) in I. apply (Permutation_in _ Pc) in I. apply in_seq in I. lia. }
  exists h, g. split; [auto|]. split; [exact Eg|]. split.
  { rewrite G1. unfold ordered_new. rewrite map_map. cbn. apply map_id. }
  rewrite G2. intros i k Hi.
  assert (Em : map snd (ordered_new H es) = map (from_event H) es) by (unfold ordered_new; rewrite map_map; auto).
  destruct (lookup_lt_is_Some_2 es i Hi) as (e & Ee).
  destruct (A i (from_event H e)) as (k' & K1 & K2 & K3).
  { rewrite Em, list_lookup_fmap, Ee. auto. }
  split.
  - intros K. rewrite K1 in K. injection K as <-. split; [|auto].
    apply lookup_lt_Some in K3. rewrite map_length in K3. lia.
  - intros (_ & K). rewrite K1. f_equal.
    assert (N : NoDup (map snd (canonical_ordering (ordered_new H es)))) by (rewrite Pc; apply NoDup_seq).
    eapply NoDup_lookup; eauto.
Qed.
(** the example of eventtape.rs:61-63,76-78 *)
Example C42_instance : let a n := Ev [n;0;0;0;0;0;0;0] default_id [] Read in
  let o := ordered_new toyH [a 4; a 2; a 1; a 3] in
  map snd (default [] (canonical_order_temporal_hints o)) = [3; 1; 0; 2]%nat /\
  map snd (default [] (temporal_order_canonical_hints o)) = [2; 1; 3; 0]%nat.
Proof. vm_compute. auto. Qed.

(** ** C43 *)
(** The tape recorded natively accepts the same emissions to the end. *)
Theorem C43_native_accepted : forall H es h, Z.of_nat (length es) <= 2 ^ 32 ->
  canonical_order_temporal_hints (ordered_new H es) = Some h ->
  exists t, vm_emits H (populate_events h) es = Some t /\ ve_index t = length (ve_reader t).
Proof.
  intros H es h L E. destruct (native_hints_accepted H es h) as (t & A & B & C); [lia|auto|].
  exists t. rewrite C. auto.
Qed.
(** Any tape whatsoever: a run accepted through clean shutdown has emitted exactly the tape's
    events, each once, in the order given by the tape's hints. *)
Theorem C43_sound : forall H tape es t,
  vm_emits H (populate_events tape) es = Some t -> ve_index t = length (ve_reader t) ->
  Permutation (map (from_event H) es) (map fst tape) /\
  Permutation (map snd tape) (seq 0 (length tape)) /\
  forall i k, map snd tape !! i = Some k -> map fst tape !! k = from_event H <$> es !! i.
Proof.
  intros H tape es t E F. destruct (vm_emits_full _ _ _ _ E F) as (L & P & V).
  split; [eapply vm_emits_permutation; eauto|]. split; [auto|].
  intros i k Ek. rewrite list_lookup_fmap in Ek. destruct (tape !! i) as [[c k']|] eqn:Et; [|discriminate].
  cbn in Ek. injection Ek as <-. destruct (V i c k' Et) as (c' & i' & e & Ec & Ee & ->).
  rewrite list_lookup_fmap, Ec, Ee. auto.
Qed.
(** hence: any two emission sequences accepted by the same tape have the same canonical events in the
    same order *)
Theorem C43_exact : forall H tape es es' t t',
  vm_emits H (populate_events tape) es = Some t -> ve_index t = length (ve_reader t) ->
  vm_emits H (populate_events tape) es' = Some t' -> ve_index t' = length (ve_reader t') ->
  map (from_event H) es = map (from_event H) es'.
Proof.
  intros H tape es es' t t' E F E' F'.
  destruct (vm_emits_full _ _ _ _ E F) as (L & P & _). destruct (vm_emits_full _ _ _ _ E' F') as (L' & _ & _).
  destruct (C43_sound _ _ _ _ E F) as (_ & _ & V). destruct (C43_sound _ _ _ _ E' F') as (_ & _ & V').
  apply list_eq. intros i. rewrite !list_lookup_fmap.
  destruct (decide (i < length tape)%nat) as [Hi|Hi].
  - destruct (lookup_lt_is_Some_2 tape i Hi) as ((c & k) & Ei).
    assert (Ek : map snd tape !! i = Some k) by (rewrite list_lookup_fmap, Ei; auto).
    rewrite <- (V _ _ Ek), <- (V' _ _ Ek). auto.
  - rewrite !lookup_ge_None_2 by lia. auto.
Qed.
Example C43_instance : let a n d := Ev [n;0;0;0;0;0;0;0] default_id d Write in
  let es := [a 4 [1]; a 2 [2]; a 4 [0]] in
  exists h t, canonical_order_temporal_hints (ordered_new toyH es) = Some h /\
    vm_emits toyH (populate_events h) es = Some t /\ ve_index t = 3%nat /\
    vm_emits toyH (populate_events h) [a 2 [2]] = None.
Proof.
  cbv zeta. eexists _, _. split; [vm_compute; reflexivity|]. split; [vm_compute; reflexivity|].
  split; vm_compute; reflexivity.
Qed.

(** ** C48 *)
(** On a tape in canonical order (which is what the native side produces) the accepted
    commitment depends on the emitted events only. *)
Theorem C48_canonical_tapes_partial : forall H checks fuel tape tape' es t t',
  Sorted ce_le (map fst tape) -> Sorted ce_le (map fst tape') ->
  vm_emits H (populate_events tape) es = Some t -> ve_index t = length (ve_reader t) ->
  vm_emits H (populate_events tape') es = Some t' -> ve_index t' = length (ve_reader t') ->
  merkleize H checks fuel (map (fun p => leaf H (fst p)) tape) =
  merkleize H checks fuel (map (fun p => leaf H (fst p)) tape').
Proof.
  intros H checks fuel tape tape' es t t' S S' E F E' F'.
  destruct (C43_sound _ _ _ _ E F) as (P & _). destruct (C43_sound _ _ _ _ E' F') as (P' & _).
  rewrite <- !(map_map fst (leaf H)). do 2 f_equal.
  apply (sorting.Sorted_unique ce_le); auto. rewrite <- P, <- P'. auto.
Qed.
(** The VM does not check that order: a prover may present the same two events in either order and
    gets two different commitments accepted for the same run. *)
Theorem C48_any_tape_refuted : forall H, exists es tape tape' t t',
  vm_emits H (populate_events tape) es = Some t /\ ve_index t = length (ve_reader t) /\
  vm_emits H (populate_events tape') es = Some t' /\ ve_index t' = length (ve_reader t') /\
  let c1 := canonical_hash H (CE [1;0;0;0;0;0;0;0] Read (hash_with_pad H [])) in
  let c2 := canonical_hash H (CE [2;0;0;0;0;0;0;0] Read (hash_with_pad H [])) in
  forall checks fuel, (3 <= fuel)%nat ->
    merkleize H checks fuel (map (fun p => leaf H (fst p)) tape) = Done (two_to_one H c1 c2) /\
    merkleize H checks fuel (map (fun p => leaf H (fst p)) tape') = Done (two_to_one H c2 c1).
Proof.
  intros H. set (a n := Ev [n;0;0;0;0;0;0;0] default_id [] Read). set (c n := from_event H (a n)).
  exists [a 1; a 2], [(c 1, 0%nat); (c 2, 1%nat)], [(c 2, 1%nat); (c 1, 0%nat)].
  assert (R : forall tape sn i e c0 k i1, tape !! i = Some (c0, k) -> sn !! k = Some false ->
    tape !! k = Some (from_event H e, i1) ->
    vm_emit H (VE tape sn i) e = Some (VE tape (<[k := true]> sn) (S i))).
  { intros. apply (vm_emit_ok H (VE tape sn i) e c0 k i1); auto. }
  eexists _, _. split; [|split; [|split; [|split]]].
  - unfold populate_events. cbn [vm_emits]. rewrite (R _ _ 0%nat (a 1) (c 1) 0%nat 0%nat) by reflexivity. cbn [mbind option_bind].
    rewrite (R _ _ 1%nat (a 2) (c 2) 1%nat 1%nat) by reflexivity. reflexivity.
  - reflexivity.
  - unfold populate_events. cbn [vm_emits]. rewrite (R _ _ 0%nat (a 1) (c 2) 1%nat 0%nat) by reflexivity. cbn [mbind option_bind].
    rewrite (R _ _ 1%nat (a 2) (c 1) 0%nat 1%nat) by reflexivity. reflexivity.
  - reflexivity.
  - cbv zeta. intros checks fuel Hf. do 3 (destruct fuel as [|fuel]; [lia|]).
    destruct checks; split; reflexivity.
Qed.

(** ** C44 *)
(** A history of sends and receives on any tape that shuts down cleanly: each send and each
    received message is a distinct tape message, in tape order, with exactly that caller, callee,
    argument and return value; every message addressed to the program is among them. *)
Theorem C44_consumes_partial : forall V (EqV : EqDecision V) self tape (evs : list (call_event V)) t,
  vm_hist (populate_calls self tape) evs t -> vc_index t = length (vc_reader t) ->
  exists ps : list nat, StronglySorted lt ps /\
    Forall2 (fun e p => exists m, tape !! p = Some m /\ explains self e m) (List.filter is_message evs) ps /\
    forall i m, tape !! i = Some m -> callee m = self -> i ∈ ps.
Proof.
  intros V EqV self tape evs t Hh C. destruct (hist_inv _ _ _ Hh) as (R & S & _ & L & ps & P1 & P2 & P3 & P4).
  cbn [populate_calls vc_reader vc_self vc_index] in *. exists ps. split; [auto|]. split; [auto|].
  intros i m E K. apply (P4 i m); auto. split; [lia|]. rewrite C, R. eapply lookup_lt_Some; eauto.
Qed.
(** A tape message that claims the program called somebody need not have been sent by it: [receive]
    skips over it and the run still shuts down cleanly. *)
Theorem C44_forged_send_refuted : exists (self other who : progid) (tape : list cpc) (evs : list (call_event (list Z))) t,
  vm_hist (populate_calls self tape) evs t /\ vc_index t = length (vc_reader t) /\
  (exists m, m ∈ tape /\ caller m = self /\ callee m = other /\ other <> self) /\
  Forall (fun e => match e with Sent _ _ _ _ _ => False | _ => True end) evs.
Proof.
  set (P n := repeat (n : Z) 32).
  exists (P 1), (P 2), (P 3),
    [CPC default_id (P 3) [] []; CPC (P 1) (P 2) [9] [9]; CPC (P 3) (P 1) [5] [6]],
    [Received (fun x => x) (fun x => x) (P 3) [5] [6]].
  eexists. split; [eapply HRecv; [vm_compute; reflexivity|constructor]|]. split; [reflexivity|].
  split; [|repeat constructor].
  exists (CPC (P 1) (P 2) [9] [9]). split; [right; left|]. vm_compute. repeat split; congruence.
Qed.
(** Replaying: the program that repeats its own part of a tape is accepted to the end when nobody
    calls itself, callers are cast, and no foreign message directly precedes one of its sends. *)
Theorem C44_replay_partial : forall V (EqV : EqDecision V) H (deA deR : list Z -> V) self acts s,
  native_run H native_init acts = Some s ->
  (forall m, m ∈ n_calls s -> caller m <> callee m) ->
  no_foreign_before_send self (n_calls s) -> self <> default_id ->
  exists t, vm_hist (populate_calls self (n_calls s))
      (flat_map (observation deA deR self) (n_calls s) ++ final_look self (n_calls s)) t /\
    vc_index t = length (vc_reader t).
Proof.
  intros V EqV H deA deR self acts s E NS NF ND.
  eexists. split; [|shelve].
  apply (replay deA deR self (n_calls s) (cast_list (n_calls s)) NS) with (done := []) (pend := []); auto.
  - intros m I _. right. apply cast_list_elem. eauto.
  - intros m I Cm. destruct (native_run_spec H acts native_init) as (A & B).
    assert (Att : Forall (attributed default_id) acts).
    { assert (D : Forall (attributed default_id) acts \/ ~ Forall (attributed default_id) acts).
      { clear -H. induction acts as [|a acts IH]; [left; constructor|].
        destruct (attributed_dec H a default_id), IH; [left; constructor; auto|right; intros C; inversion C; auto..]. }
      destruct D as [D|D]; [auto|]. cbn in B. rewrite B in E by auto. discriminate. }
    cbn in A. destruct (A Att) as (s' & E' & _ & C & _). rewrite E in E'. injection E' as <-. cbn in C.
    rewrite C in I. change (top_identity []) with default_id in I.
    destruct (flat_calls_callers H _ _ _ I) as [K|(m' & I' & K)]; [left; auto|right].
    apply cast_list_elem. exists m'. rewrite C. auto.
  - intros m I. apply elem_of_nil in I. tauto.
  Unshelve. reflexivity.
Qed.
(** Without the last condition a recorded run is not replayable: program 1 calls 2, which calls 3;
    then 1 calls 4. In the VM program 1's second send finds the message from 2 to 3 and panics. *)
Theorem C44_nested_refuted : forall H, exists s,
  let P n := repeat (n : Z) 32 in
  native_run H native_init
    [ACall (P 1) [] [ACall (P 2) [] [ACall (P 3) [] [] []] []; ACall (P 4) [] [] []] []] = Some s /\
  forall t, vm_hist (populate_calls (P 1) (n_calls s))
     [Received (fun x => x) (fun x => x) default_id [] []; Sent (fun x => x) (fun x => x) (P 2) [] []] t ->
   vm_send veqb (fun x => x) (fun x => x) t (P 4) [] = None.
Proof.
  intros H. eexists. split; [vm_compute; reflexivity|]. intros t Hh.
  inversion Hh as [| |? ? ? ? ? ? t1 ? ? E1 H1|]; subst. vm_compute in E1. injection E1 as <-.
  inversion H1 as [|? ? ? ? ? ? t2 ? ? E2 H2| |]; subst. vm_compute in E2. injection E2 as <-.
  inversion H2; subst. vm_compute. reflexivity.
Qed.
Example C44_instance : forall H, exists s t,
  let P n := repeat (n : Z) 32 in
  native_run H native_init
    [ACall (P 1) [7] [ACall (P 2) [1] [] [2]; ACall (P 4) [3] [] [4]] [8]; ACall (P 5) [] [] []] = Some s /\
  vm_hist (populate_calls (P 1) (n_calls s))
     [Received (fun x => x) (fun x => x) default_id [7] [8]; Sent (fun x => x) (fun x => x) (P 2) [1] [2];
      Sent (fun x => x) (fun x => x) (P 4) [3] [4]; NoMessage] t /\ vc_index t = length (vc_reader t).
Proof.
  intros H. eexists _, _. split; [vm_compute; reflexivity|]. split.
  - eapply HRecv; [vm_compute; reflexivity|]. eapply HSend; [vm_compute; reflexivity|].
    eapply HSend; [vm_compute; reflexivity|]. eapply (HNone _ (fun x => x) (fun x => x)); [vm_compute; reflexivity|]. constructor.
  - reflexivity.
Qed.

(** ** C45 *)
(** Any list of native actions (trees of nested calls): the run succeeds exactly when nobody emits
    or writes input under the null identity; then the identity stack is restored, the recorded calls
    are those of the tree in the order they begin, each with the enclosing callee as caller and its own
    argument and return value, and events and inputs are filed under the program that made them. *)
Theorem C45_native_recording : forall H s acts,
  let who := top_identity (n_stack s) in
  (Forall (attributed who) acts <-> exists s', native_run H s acts = Some s') /\
  forall s', native_run H s acts = Some s' ->
    n_stack s' = n_stack s /\
    n_calls s' = n_calls s ++ flat_map (calls_of who) acts /\
    (forall id, default [] (n_events s' !! id) =
        default [] (n_events s !! id) ++ ordered_new H (flat_map (events_of id who) acts)) /\
    (forall id, default [] (n_private s' !! id) = default [] (n_private s !! id) ++ flat_map (input_of false id who) acts) /\
    (forall id, default [] (n_public s' !! id) = default [] (n_public s !! id) ++ flat_map (input_of true id who) acts).
Proof.
  intros H s acts who. destruct (native_run_spec H acts s) as (A & B). fold who in A, B.
  assert (D : Forall (attributed who) acts \/ ~ Forall (attributed who) acts).
  { clear -H. generalize who. intros w. induction acts as [|a acts IH]; [left; constructor|].
    destruct (attributed_dec H a w), IH; [left; constructor; auto|right; intros C; inversion C; auto..]. }
  split.
  - split; [intros F; destruct (A F) as (s' & E & _); eauto|]. intros (s' & E). destruct D as [D|D]; [auto|].
    rewrite B in E by auto. discriminate.
  - intros s' E. destruct D as [D|D]; [|rewrite B in E by auto; discriminate].
    destruct (A D) as (s2 & E2 & X). rewrite E in E2. injection E2 as <-. exact X.
Qed.
Example C45_instance : forall H, exists s,
  let P n := repeat (n : Z) 32 in let e := Ev [1;0;0;0;0;0;0;0] default_id [5] Write in
  native_run H native_init [ACall (P 1) [7] [AInput true [9]; ACall (P 2) [1] [AEmit e] [2]; AEmit e] [8]] = Some s /\
  n_calls s = [CPC default_id (P 1) [7] [8]; CPC (P 1) (P 2) [1] [2]] /\
  n_events s !! P 2 = Some [(e, from_event H e)] /\ n_public s !! P 1 = Some [9] /\ n_stack s = [].
Proof.
  intros H. cbv zeta.
  destruct (C45_native_recording H native_init [ACall (repeat 1 32) [7] [AInput true [9]; ACall (repeat 2 32) [1] [AEmit (Ev [1;0;0;0;0;0;0;0] default_id [5] Write)] [2]; AEmit (Ev [1;0;0;0;0;0;0;0] default_id [5] Write)] [8]]) as ((A & _) & _).
  destruct A as (s & E). { cbn. repeat constructor; vm_compute; congruence. }
  exists s. split; [exact E|]. cbn in E. vm_compute in E. injection E as <-. repeat split.
Qed.

(** ** C46 *)
Theorem C46_padding : forall x y : list Z,
  (pad x = pad y -> x = y) /\
  (exists k, (0 < k)%nat /\ length (pad x) = (k * RATE)%nat) /\
  take (length x) (pad x) = x.
Proof.
  intros x y. split; [apply pad_inj|]. destruct (pad_length x) as (A & B). split.
  - exists (length (pad x) / 8)%nat. unfold RATE. pose proof (Nat.div_mod (length (pad x)) 8 ltac:(lia)). lia.
  - unfold pad. rewrite <- app_assoc. apply take_app.
Qed.
Example C46_instance : pad [] = [1;0;0;0;0;0;0;0] /\ length (pad (repeat 3 7)) = 8%nat /\ length (pad (repeat 3 8)) = 16%nat.
Proof. repeat split. Qed.

(** ** C47 *)
Theorem C47_digest_words : 
  (forall v, length v = 4%nat -> Forall u64 v ->
     to_u64s (from_u64s v) = v /\ length (from_u64s v) = DIGEST_BYTES) /\
  (forall d, length d = DIGEST_BYTES -> Forall u8 d ->
     from_u64s (to_u64s d) = d /\ length (to_u64s d) = 4%nat /\ Forall u64 (to_u64s d)).
Proof.
  split.
  - intros v L F. split; [apply to_from_u64s; auto|].
    destruct v as [|a [|b [|c [|d [|]]]]]; try discriminate L. reflexivity.
  - intros d L F. split; [apply from_to_u64s; auto|]. split; [reflexivity|].
    unfold to_u64s. apply List.Forall_map, List.Forall_forall. intros i _.
    assert (R : 0 <= from_le (take 8 (drop (8 * i) d)) < 256 ^ Z.of_nat (length (take 8 (drop (8 * i) d)))).
    { apply from_le_range, Forall_take, Forall_drop. auto. }
    assert (K : (length (take 8 (drop (8 * i) d)) <= 8)%nat) by (rewrite take_length; lia).
    unfold u64. split; [lia|]. eapply Z.lt_le_trans; [apply R|].
    change 18446744073709551616 with (256 ^ 8). apply Z.pow_le_mono_r; lia.
Qed.
Example C47_instance : to_u64s (from_u64s [1; 2 ^ 64 - 1; 0; 77]) = [1; 2 ^ 64 - 1; 0; 77] /\
  take 9 (from_u64s [258; 3; 0; 0]) = [2; 1; 0; 0; 0; 0; 0; 0; 3].
Proof. vm_compute. auto. Qed.

(** ** C49 *)
(** A read that stays inside the tape returns exactly the bytes at the offset. Missing: reads past
    the end and reads after seeking forward, which panic. *)
Theorem C49_read_partial : forall B t n, tape_over B t -> 0 <= n -> it_offset t + n <= Z.of_nat (length B) ->
  exists t', it_read t n = Some (n, take (Z.to_nat n) (drop (Z.to_nat (it_offset t)) B), t') /\
    tape_over B t' /\ it_offset t' = it_offset t + n.
Proof. exact it_read_ok. Qed.
Theorem C49_fresh : forall B, tape_over B (IT 0 (Z.of_nat (length B)) [] B).
Proof. intros B. exists 0%nat. cbn. repeat split; try lia. Qed.
(** Seeking within what has been read keeps the tape in a readable state at that offset. *)
Theorem C49_seek_partial : forall B t x, tape_over B t -> 0 <= x <= Z.of_nat (length (it_buf t)) ->
  x < it_size_hint t ->
  exists t', it_seek t (SeekStart x) = Some t' /\ tape_over B t' /\ it_offset t' = x.
Proof.
  intros B t x (k & Lk & Eb & Er & Es & Ho) Hx Hs. cbn [it_seek].
  replace (it_size_hint t <=? x) with false by lia. replace (x <? 0) with false by lia.
  eexists. split; [reflexivity|]. split; [|reflexivity]. exists k. cbn [it_buf it_rest it_size_hint it_offset].
  rewrite Eb, take_length in Hx. repeat split; auto; lia.
Qed.
(** "Reads at most the given number of bytes": any read that would be short panics, also at the end of
    the tape. *)
Theorem C49_short_read_refuted : forall B t n,
  tape_over B t -> 0 <= n -> Z.of_nat (length B) < it_offset t + n -> it_read t n = None.
Proof. exact it_read_short. Qed.
(** Seeking forward over unread bytes and reading panics. *)
Theorem C49_seek_forward_refuted : forall B, (2 <= length B)%nat -> exists t,
  it_seek (IT 0 (Z.of_nat (length B)) [] B) (SeekStart 1) = Some t /\ it_read t 1 = None.
Proof.
  intros B L. cbn [it_seek it_size_hint]. replace (Z.of_nat (length B) <=? 1) with false by lia.
  eexists. split; [reflexivity|]. unfold it_read. cbn [it_size_hint it_offset it_buf length].
  replace (Z.of_nat (length B) <? 1 + 1) with false by lia. reflexivity.
Qed.
Example C49_instance : let t0 := IT 0 5 [] [10;11;12;13;14] in
  exists t1 t2 t3, it_read t0 3 = Some (3, [10;11;12], t1) /\ it_seek t1 (SeekStart 1) = Some t2 /\
    it_read t2 4 = Some (4, [11;12;13;14], t3) /\ it_read t3 1 = None.
Proof. cbv zeta. eexists _, _, _. split; [vm_compute; reflexivity|]. split; [vm_compute; reflexivity|]. split; vm_compute; reflexivity. Qed.

(** ** C50 *)
(** With overflow checks every sequence of allocations that returns is sound. *)
Theorem C50_alloc_partial : forall end_ reqs blocks, 0 < end_ -> Forall valid_layout reqs ->
  alloc_run true end_ 0 reqs = Some blocks ->
  map snd blocks = map fst reqs /\
  Forall (fun b => end_ <= fst b /\ fst b + snd b < 2 ^ 32) blocks /\
  Forall2 (fun b r => fst b mod snd r = 0) blocks reqs /\
  forall i j b b', (i < j)%nat -> blocks !! i = Some b -> blocks !! j = Some b' -> fst b + snd b <= fst b'.
Proof.
  intros e reqs blocks He F E. apply (alloc_run_spec e He reqs 0 blocks); auto; try lia.
  revert F. apply Forall_impl. intros r ((? & ?) & k & ? & ?). split; [lia|]. exists k. lia.
Qed.
(** Guest programs are built without overflow checks: the heap pointer wraps and memory of the
    program image is handed out. *)
Theorem C50_wrap_refuted : exists reqs blocks b, Forall valid_layout reqs /\
  alloc_run false 65536 0 reqs = Some blocks /\ b ∈ blocks /\ fst b < 65536 /\ fst b + snd b > fst b.
Proof.
  exists [(2147483640, 4); (2147483640, 4); (8, 4)]. eexists _, (65520, 8).
  split; [|split; [vm_compute; reflexivity|]].
  - repeat constructor; cbn [fst snd]; try lia; exists 2; lia.
  - split; [right; right; left|]. cbn. lia.
Qed.
Example C50_instance : alloc_run true 65537 0 [(3, 1); (8, 4); (16, 16)] = Some [(65537, 3); (65540, 8); (65552, 16)].
Proof. reflexivity. Qed.

(** ** C51 *)
(** The tapes built from a native run, for any program: if it repeats its emissions and ends at the
    end of the call tape, the clean-shutdown check passes. Partial: when the commitments cannot be
    computed (C40) no tapes are built at all. *)
Theorem C51_assembled_tapes_partial : forall H checks fuel acts s self rt tc,
  native_run H native_init acts = Some s ->
  raw_tapes_from_system_tape H checks fuel s self = Some rt ->
  vc_cast tc = vc_cast (populate_calls (rt_self rt) (rt_call rt)) -> vc_reader tc = rt_call rt ->
  vc_index tc = length (rt_call rt) ->
  Z.of_nat (length (flat_map (events_of self default_id) acts)) <= 2 ^ 32 ->
  exists te, vm_emits H (populate_events (rt_event rt)) (flat_map (events_of self default_id) acts) = Some te /\
    ensure_clean_shutdown H checks fuel tc te (rt_events_commitment rt) (rt_cast_commitment rt) = true.
Proof.
  intros H checks fuel acts s self rt tc E R Cc Cr Ci L.
  destruct (C45_native_recording H native_init acts) as (_ & X). destruct (X s E) as (_ & _ & V & _). clear X.
  specialize (V self). change (top_identity (n_stack native_init)) with default_id in V.
  cbn [native_init n_events] in V. rewrite lookup_empty in V. cbn [default app] in V.
  unfold raw_tapes_from_system_tape in R.
  destruct (canonical_order_temporal_hints (default [] (n_events s !! self))) as [h|] eqn:Eh; cbn [mbind option_bind] in R; [|discriminate].
  destruct (merkleize H checks fuel (map (fun p => leaf H (fst p)) h)) as [d| |] eqn:Em; cbn [mbind option_bind] in R; try discriminate.
  destruct (merkleize H checks fuel (cast_leaves (cast_list (n_calls s)))) as [d'| |] eqn:Em'; cbn [mbind option_bind] in R; try discriminate.
  destruct (length_prefixed_bytes (default [] (n_private s !! self))); cbn [mbind option_bind] in R; try discriminate.
  destruct (length_prefixed_bytes (default [] (n_public s !! self))); cbn [mbind option_bind] in R; try discriminate.
  injection R as <-. cbn [rt_event rt_call rt_self rt_events_commitment rt_cast_commitment] in *.
  rewrite V in Eh. destruct (native_hints_accepted H _ h L Eh) as (te & A & B & C).
  exists te. split; [auto|]. unfold ensure_clean_shutdown. rewrite Cc, Cr, Ci, B, C. cbn [populate_calls vc_cast].
  rewrite Em, Em', !Nat.eqb_refl. cbn. rewrite !(proj2 (bytes_eqb_spec _ _)) by auto. auto.
Qed.
(** The cast-list commitment never fails: its leaves are numbered from 0. *)
Theorem C51_cast_commitment : forall H checks cl fuel,
  (length cl < fuel)%nat -> Z.of_nat (length cl) < 2 ^ 63 ->
  exists d, merkleize H checks fuel (cast_leaves cl) = Done d /\ PrefixRoot (two_to_one H) (cast_leaves cl) d.
Proof.
  intros H checks cl fuel Lf L. 
  assert (LK : forall i x, cast_leaves cl !! i = Some x -> fst x = Z.of_nat i /\ (i < length cl)%nat).
  { intros i x E. unfold cast_leaves in E.
    assert (E1 : map fst (combine (map Z.of_nat (seq 0 (length cl))) cl) !! i = Some (fst x)).
    { change (map fst) with (fmap (M := list) (@fst Z digest)). rewrite list_lookup_fmap, E. auto. }
    rewrite combine_map_fst in E1 by (rewrite map_length, seq_length; auto).
    change (map Z.of_nat) with (fmap (M := list) Z.of_nat) in E1.
    rewrite list_lookup_fmap in E1. destruct (seq 0 (length cl) !! i) as [k|] eqn:Ek; [|discriminate].
    apply lookup_seq in Ek as (-> & ?). cbn in E1. injection E1 as <-. auto. }
  apply merkleize_prefix_root.
  - intros i j x y Lij Ex Ey. apply LK in Ex as (-> & _). apply LK in Ey as (-> & _). lia.
  - apply List.Forall_forall. intros x I. apply elem_of_list_In, elem_of_list_lookup in I as (i & E).
    apply LK in E as (-> & ?). unfold u64. lia.
  - intros (lo & hi & B & _ & J & _). apply elem_of_list_lookup in J as (i & E). rewrite list_lookup_fmap in E.
    destruct (cast_leaves cl !! i) as [x|] eqn:Ex; [|discriminate]. cbn in E. injection E as <-.
    apply LK in Ex as (K & ?). lia.
  - unfold cast_leaves. rewrite combine_length, map_length, seq_length. lia.
Qed.
(** Length prefix: the VM reads back exactly the bytes written (system.rs:72-80, 101-105). *)
Theorem C51_length_prefix : forall data b, length_prefixed_bytes data = Some b ->
  from_le (take 4 b) = Z.of_nat (length data) /\ drop 4 b = data.
Proof.
  intros data b. unfold length_prefixed_bytes. destruct (Z.ltb_spec (Z.of_nat (length data)) 4294967296) as [L|L]; [|discriminate].
  intros E. set (p := le_bytes 4 (Z.of_nat (length data))) in *. assert (Eb : b = p ++ data) by congruence. rewrite Eb.
  assert (Lp : length p = 4%nat) by apply le_bytes_len.
  rewrite take_app_alt, drop_app_alt by auto. split; [|auto].
  unfold p. rewrite from_le_bytes; [auto|]. cbn. lia.
Qed.
Definition c51_id (n : Z) : progid := repeat n 32.
Definition c51_ev (n : Z) : event := Ev [n;0;0;0;0;0;0;0] default_id [5] Write.
Definition c51_acts : list action := [ACall (c51_id 1) [7] [AEmit (c51_ev 3); AEmit (c51_ev 2)] [8]].
Definition c51_check : bool :=
  match native_run toyH native_init c51_acts with
  | Some s => match raw_tapes_from_system_tape toyH true 10 s (c51_id 1) with
    | Some rt => match vm_emits toyH (populate_events (rt_event rt)) [c51_ev 3; c51_ev 2] with
      | Some te => ensure_clean_shutdown toyH true 10 (VC (cast_list (n_calls s)) (c51_id 1) (n_calls s) 1) te
                     (rt_events_commitment rt) (rt_cast_commitment rt)
      | None => false end
    | None => false end
  | None => false end.
Lemma c51_check_true : c51_check = true.
Proof. vm_compute. reflexivity. Qed.
Example C51_instance : exists s rt te,
  native_run toyH native_init c51_acts = Some s /\
  raw_tapes_from_system_tape toyH true 10 s (c51_id 1) = Some rt /\
  vm_emits toyH (populate_events (rt_event rt)) [c51_ev 3; c51_ev 2] = Some te /\
  ensure_clean_shutdown toyH true 10 (VC (cast_list (n_calls s)) (c51_id 1) (n_calls s) 1) te
    (rt_events_commitment rt) (rt_cast_commitment rt) = true.
Proof.
  pose proof c51_check_true as E. unfold c51_check in E.
  destruct (native_run toyH native_init c51_acts) as [s|]; [|discriminate].
  destruct (raw_tapes_from_system_tape toyH true 10 s (c51_id 1)) as [rt|] eqn:Er; [|discriminate].
  destruct (vm_emits toyH (populate_events (rt_event rt)) [c51_ev 3; c51_ev 2]) as [te|] eqn:Et; [|discriminate].
  exists s, rt, te. auto.
Qed.

Print Assumptions C40_merkleize_partial.
Print Assumptions C40_base.
Print Assumptions C40_top_bit_refuted.
Print Assumptions C41_sorted_refuted.
Print Assumptions C41_root_refuted.
Print Assumptions C41_order_independent_partial.
Print Assumptions C41_canonical_sorted_partial.
Print Assumptions C42_hints.
Print Assumptions C42_inverse.
Print Assumptions C43_native_accepted.
Print Assumptions C43_sound.
Print Assumptions C43_exact.
Print Assumptions C48_canonical_tapes_partial.
Print Assumptions C48_any_tape_refuted.
Print Assumptions C44_consumes_partial.
Print Assumptions C44_forged_send_refuted.
Print Assumptions C44_replay_partial.
Print Assumptions C44_nested_refuted.
Print Assumptions C45_native_recording.
Print Assumptions C46_padding.
Print Assumptions C47_digest_words.
Print Assumptions C49_read_partial.
Print Assumptions C49_fresh.
Print Assumptions C49_seek_partial.
Print Assumptions C49_short_read_refuted.
Print Assumptions C49_seek_forward_refuted.
Print Assumptions C50_alloc_partial.
Print Assumptions C50_wrap_refuted.
Print Assumptions C51_assembled_tapes_partial.
Print Assumptions C51_cast_commitment.
Print Assumptions C51_length_prefix.
