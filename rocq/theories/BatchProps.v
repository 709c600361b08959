(** C85: the tables in a batched proof.  C86: the rounds of its FRI. *)
From stdpp Require Import list.
From Coq Require Import Permutation Sorted Lia PeanoNat Bool List.
From Verif Require Import Word BatchModel BatchSpec BatchProofs BatchFri BatchArity.
Open Scope nat_scope.

(** ** C85 *)
(** The indices the prover computes for a table's polynomials are where they are: in the list of all of them, and in the leaves of
    their layer of the tree. *)
Theorem C85_layout {A} (K : nat) (pub : list nat) (deg : nat -> nat) (len : A -> nat) (polys : nat -> list A) :
  (forall k p, is_batched K pub k -> List.In p (polys k) -> len p = 2 ^ deg k) ->
  forall k, is_batched K pub k ->
  let count k := length (polys k) in
  let all := committed_polys K pub len polys in
  exists s b, poly_start (indices_new K pub deg count) k = Some s /\ bmt_start (indices_new K pub deg count) k = Some b /\
    s = offset K pub deg count k /\ b = layer_offset K pub deg count k /\
    slice s (count k) all = polys k /\ slice b (count k) (layer len all (2 ^ deg k)) = polys k.
Proof.
  intros Hlen k Hk count all. destruct (indices_at K pub deg count k Hk) as [E1 E2].
  exists (offset K pub deg count k), (layer_offset K pub deg count k). do 4 (split; [assumption || reflexivity|]).
  unfold all. rewrite (committed_layer K pub deg len polys Hlen), (committed_order K pub deg len polys Hlen). split.
  - pose proof (proj2 (in_order K pub deg k) Hk) as Hin. apply in_split in Hin as [L1 [L2 E]].
    rewrite (offset_order K pub deg count L1 k L2 E), E. apply slice_flat_map.
  - pose proof (proj2 (group_in K pub deg (deg k) k) (conj Hk eq_refl)) as Hin. apply in_split in Hin as [L1 [L2 E]].
    rewrite (layer_offset_group K pub deg count L1 k L2 E), E. apply slice_flat_map.
Qed.

Lemma nth_slice {A} (l : list A) s n d : s + n <= length l -> map (fun i => List.nth (s + i) l d) (seq 0 n) = slice s n l.
Proof.
  revert s. induction n as [|n IH]; intros s H; [unfold slice; reflexivity|].
  cbn [seq map]. rewrite <- seq_shift, map_map. rewrite (map_ext _ (fun i => List.nth (S s + i) l d)) by (intros; f_equal; lia).
  rewrite IH by lia. unfold slice. rewrite Nat.add_0_r.
  assert (E : skipn s l = List.nth s l d :: skipn (S s) l).
  { clear IH. revert s H. induction l as [|x l IH]; intros s H; [cbn in H; lia|]. destruct s as [|s]; [reflexivity|]. cbn [skipn List.nth]. apply IH. cbn in H. lia. }
  rewrite E. reflexivity.
Qed.
Lemma slice_bound {A} (l : list A) s n : length (slice s n l) = n -> n <> 0 -> s + n <= length l.
Proof. unfold slice. rewrite firstn_length, skipn_length. lia. Qed.

Section Honest.
  Context {V A : Type} (K : nat) (pub : list nat) (deg : nat -> nat) (S : system V) (len : A -> nat) (dflt : A) (polys : nat -> nat -> list A).
  Context (eval : A -> nat -> nat -> V).
  Hypothesis Hs : well_sized K pub deg S len polys.
  Lemma own_honest count : (forall o a, is_batched K pub a -> o < 3 -> count o a = system_count S o a) -> forall k, is_batched K pub k ->
    own_openings eval (oracles K pub len dflt polys) (deg k) (fun o => offset K pub deg (count o) k) (fun o => count o k) = batch_new eval (deg k) (fun o => polys o k).
  Proof.
    intros Hc k Hk.
    assert (H : forall o j, o < 3 -> map (fun i => eval (oracles K pub len dflt polys o (offset K pub deg (count o) k + i)) (deg k) j) (seq 0 (count o k)) = map (fun p => eval p (deg k) j) (polys o k)).
    { intros o j Ho. rewrite <- (map_map (fun i => oracles K pub len dflt polys o (offset K pub deg (count o) k + i)) (fun p => eval p (deg k) j)). f_equal.
      destruct (C85_layout K pub deg len (polys o)) with (k := k) as (s & b & _ & _ & Es & _ & E & _); [intros a p Ha; now apply (Hs a Ha o Ho)|assumption|].
      rewrite (offset_ext K pub deg (count o) (fun k => length (polys o k))) by (intros a Ha; rewrite (proj1 (Hs a Ha o Ho)); now apply Hc).
      rewrite <- Es. rewrite (Hc o k Hk Ho), <- (proj1 (Hs k Hk o Ho)). unfold oracles.
      destruct (Nat.eq_dec (length (polys o k)) 0) as [Ez|En].
      - rewrite Ez. destruct (polys o k); [reflexivity|discriminate].
      - rewrite nth_slice; [exact E|]. apply slice_bound; [now rewrite E|assumption]. }
    unfold own_openings, batch_new. rewrite !H by lia. reflexivity.
  Qed.
End Honest.

(** The openings the prover makes of the tables' own polynomials pass the batched verifier's check, if every table's quotient is the
    right one and the lookups are satisfied. *)
Theorem C85_complete {V A} eqb (K : nat) (pub : list nat) (deg : nat -> nat) (S : system V) (len : A -> nat) dflt (polys : nat -> nat -> list A)
  (eval : A -> nat -> nat -> V) (lookups : (nat -> list V) -> Prop) :
  (forall x y : V, eqb x y = true <-> x = y) -> (forall k, is_batched K pub k -> 0 < s_factor S k) ->
  well_sized K pub deg S len polys ->
  let honest k := batch_new eval (deg k) (fun o => polys o k) in
  (forall k, is_batched K pub k -> quotient_identity S k (honest k)) ->
  lookups (fun k => ctl_zs_last (honest k)) ->
  batch_accepts eqb K pub deg S eval (oracles K pub len dflt polys) lookups honest.
Proof.
  intros Heq Hf Hs honest Hq Hl.
  assert (Hv : forall k, is_batched K pub k -> valid_shape S k (honest k) = true).
  { intros k Hk. unfold valid_shape, honest, batch_new. cbn [local_values next_values ctl_zs ctl_zs_next ctl_zs_last quotient_polys]. rewrite !map_length.
    rewrite (proj1 (Hs k Hk 0 ltac:(lia))), (proj1 (Hs k Hk 1 ltac:(lia))), (proj1 (Hs k Hk 2 ltac:(lia))). cbn [system_count]. rewrite !Nat.eqb_refl. reflexivity. }
  split; [|split; [assumption|]].
  - apply forallb_forall. intros k Hk. apply in_batched in Hk. apply verify_quotient_spec; auto.
  - apply (fri_check_own K pub deg eval (oracles K pub len dflt polys) (instance_counts S honest)).
    intros k Hk j. unfold own. rewrite (own_honest K pub deg S len dflt polys eval Hs); [reflexivity| |assumption].
    intros o a Ha Ho. unfold instance_counts, system_count. destruct o as [|[|[|o]]]; [reflexivity| |reflexivity|lia].
    unfold honest, batch_new. cbn [ctl_zs_last]. rewrite map_length. now apply (Hs a Ha 1 ltac:(lia)).
Qed.

(** What an accepted proof shows about the batched tables, if the openings of each have the shape its system prescribes: the openings of a
    table are the values of its own polynomials - those at its offset in each commitment - and they satisfy its constraints. *)
Theorem C85_openings_partial {V A} eqb (K : nat) (pub : list nat) (deg : nat -> nat) (S : system V) (eval : A -> nat -> nat -> V) committed lookups proofs :
  (forall x y : V, eqb x y = true <-> x = y) -> (forall k, is_batched K pub k -> 0 < s_factor S k) ->
  batch_accepts eqb K pub deg S eval committed lookups proofs ->
  (forall k, is_batched K pub k -> valid_shape S k (proofs k) = true) ->
  forall k, is_batched K pub k ->
    proofs k = own_openings eval committed (deg k) (fun o => offset K pub deg (system_count S o) k) (fun o => system_count S o k) /\
    quotient_identity S k (proofs k).
Proof.
  intros Heq Hf (Hq & _ & Hc) Hv k Hk. split.
  - rewrite (fri_check_sound K pub deg eval committed (instance_counts S proofs) proofs Hc) with (k := k); [| |assumption].
    + assert (E : forall o a, is_batched K pub a -> instance_counts S proofs o a = system_count S o a).
      { intros o a Ha. specialize (Hv a Ha). unfold valid_shape in Hv. rewrite !andb_true_iff, !Nat.eqb_eq in Hv. destruct Hv as [[_ H] _].
        unfold instance_counts, system_count. destruct o as [|[|o]]; tauto. }
      unfold own, own_openings. rewrite !(E _ k Hk).
      rewrite (offset_ext K pub deg _ (system_count S 0)) by (intros; now apply E).
      rewrite (offset_ext K pub deg (instance_counts S proofs 1) (system_count S 1)) by (intros; now apply E).
      rewrite (offset_ext K pub deg (instance_counts S proofs 2) (system_count S 2)) by (intros; now apply E). reflexivity.
    + intros a Ha. specialize (Hv a Ha). unfold valid_shape in Hv. rewrite !andb_true_iff, !Nat.eqb_eq in Hv. unfold instance_counts. tauto || (destruct Hv as [[[[[H1 H2] H3] H4] H5] H6]; repeat split; congruence).
  - apply (verify_quotient_spec eqb); auto. rewrite forallb_forall in Hq. apply Hq. now apply in_batched.
Qed.

(** The verifier does not check those shapes.  Whatever polynomials are committed, and whatever the constraints of the batched tables, there
    is an accepted proof as soon as the lookups are satisfied: the openings of the quotients need only be counted among those of
    the lookup polynomials. *)
Theorem C85_refuted {V A} eqb (K : nat) (pub : list nat) (deg : nat -> nat) (S : system V) (len : A -> nat) dflt (polys : nat -> nat -> list A)
  (eval : A -> nat -> nat -> V) (lookups : (nat -> list V) -> Prop) :
  well_sized K pub deg S len polys ->
  let honest k := batch_new eval (deg k) (fun o => polys o k) in
  lookups (fun k => ctl_zs_last (honest k)) ->
  batch_accepts eqb K pub deg S eval (oracles K pub len dflt polys) lookups (fun k => hide_quotient (honest k)).
Proof.
  intros Hs honest Hl. split; [|split; [exact Hl|]].
  - apply forallb_forall. intros k Hk. apply in_batched in Hk. unfold verify_quotient, hide_quotient, honest, batch_new.
    cbn [local_values next_values ctl_zs ctl_zs_next ctl_zs_last quotient_polys]. rewrite app_length, !map_length.
    rewrite (proj1 (Hs k Hk 0 ltac:(lia))), (proj1 (Hs k Hk 1 ltac:(lia))). cbn [system_count]. rewrite !Nat.eqb_refl, Nat.leb_refl.
    rewrite (proj2 (Nat.leb_le _ _)) by lia. reflexivity.
  - apply (fri_check_own K pub deg eval (oracles K pub len dflt polys) (instance_counts S (fun k => hide_quotient (honest k)))).
    intros k Hk j. unfold own. rewrite (own_honest K pub deg S len dflt polys eval Hs); [|intros o a Ha Ho|assumption].
    + unfold hide_quotient, to_fri_openings. cbn [local_values next_values ctl_zs ctl_zs_next ctl_zs_last quotient_polys]. rewrite app_nil_r. reflexivity.
    + unfold instance_counts, system_count. destruct o as [|[|[|o]]]; [reflexivity| |reflexivity|lia].
      unfold honest, hide_quotient, batch_new. cbn [ctl_zs_last]. rewrite map_length. now apply (Hs a Ha 1 ltac:(lia)).
Qed.

(** Five tables, of which number 2 is public; a polynomial is a table, its number and its length *)
Example C85_layout_ex :
  let deg := nth_default 0 [3; 5; 4; 3; 5] in
  let n := nth_default 0 [2; 1; 7; 3; 2] in
  let polys k := map (fun i => (k, i, 2 ^ deg k)) (seq 0 (n k)) in
  sort_degree_bits 5 [2] deg = [5; 3] /\
  map (poly_start (indices_new 5 [2] deg n)) (seq 0 5) = [Some 3; Some 0; None; Some 5; Some 1] /\
  map (bmt_start (indices_new 5 [2] deg n)) (seq 0 5) = [Some 0; Some 0; None; Some 2; Some 1] /\
  map (fun '(k, i, _) => (k, i)) (committed_polys 5 [2] (fun '(_, _, l) => l) polys) = [(1, 0); (4, 0); (4, 1); (0, 0); (0, 1); (3, 0); (3, 1); (3, 2)].
Proof. repeat split; vm_compute; reflexivity. Qed.

(** One table of one column; its constraint says that the column is zero at zeta, and the quotient is that value.  A polynomial is its values
    at the three points. *)
Definition ex_system : system nat := mkSystem (fun _ => 1) (fun _ => 0) 1 (fun _ => 1) (fun _ l _ _ _ => l) (fun _ c => 7 * List.hd 0 c).
Definition ex_polys (column : list nat) (o k : nat) : list (list nat) := match o with 0 => [column] | 1 => [] | _ => [[3; 0; 0]] end.
Definition ex_eval (p : list nat) (_ j : nat) : nat := nth j p 0.
(** With the column 21 the honest proof is accepted; with 22 it is not, and no proof of valid shape is; but one without quotients is. *)
Example C85_complete_ex : batch_accepts Nat.eqb 1 [] (fun _ => 0) ex_system ex_eval (oracles 1 [] (fun _ => 1) [] (ex_polys [21; 5; 5])) (fun _ => True) (fun k => batch_new ex_eval 0 (fun o => ex_polys [21; 5; 5] o k)).
Proof.
  apply (C85_complete Nat.eqb 1 [] (fun _ => 0) ex_system (fun _ => 1) [] (ex_polys [21; 5; 5])).
  - apply Nat.eqb_eq.
  - intros; cbn; lia.
  - intros k _ o Ho. split; [destruct o as [|[|[|o]]]; cbn; lia|reflexivity].
  - intros k _ i Hi. cbn in Hi. assert (i = 0) as -> by lia. reflexivity.
  - exact I.
Qed.
Example C85_refuted_ex :
  let committed := oracles 1 [] (fun _ => 1) [] (ex_polys [22; 5; 5]) in
  let accepted := batch_accepts Nat.eqb 1 [] (fun _ => 0) ex_system ex_eval committed (fun _ => True) in
  (exists proofs, accepted proofs) /\ forall proofs, accepted proofs -> valid_shape ex_system 0 (proofs 0) = false.
Proof.
  cbn zeta. split.
  - eexists. apply (C85_refuted Nat.eqb 1 [] (fun _ => 0) ex_system (fun _ => 1) [] (ex_polys [22; 5; 5])); [|exact I].
    intros k _ o Ho. split; [destruct o as [|[|[|o]]]; cbn; lia|reflexivity].
  - intros proofs Ha. destruct (valid_shape ex_system 0 (proofs 0)) eqn:E; [exfalso|reflexivity].
    assert (Hb : is_batched 1 [] 0) by (split; [lia|intros []]).
    destruct (C85_openings_partial Nat.eqb 1 [] (fun _ => 0) ex_system ex_eval (oracles 1 [] (fun _ => 1) [] (ex_polys [22; 5; 5])) (fun _ => True) proofs Nat.eqb_eq) with (k := 0) as [H1 H2]; [intros; unfold ex_system; cbn; lia|exact Ha| |exact Hb|].
    + intros k [Hk _]. assert (k = 0) as -> by lia. assumption.
    + specialize (H2 0 ltac:(cbn; lia)). rewrite H1 in H2. vm_compute in H2. discriminate.
Qed.

Print Assumptions C85_layout.
Print Assumptions C85_complete.
Print Assumptions C85_openings_partial.
Print Assumptions C85_refuted.

(** ** C86 *)
(** The rounds of the batched FRI: each has arity 2, 4 or 8, the polynomial that is folded passes through the degree of every table - where
    the polynomials of that degree join - and folding ends at most two bits above the smallest size allowed, not below the size of the
    cap.  It is computed exactly when there is a table, the cap is not larger than the smallest codeword and the blowup fits into the
    largest final size. *)
Theorem C86_rounds (degree_bits : list nat) (rate_bits cap_height : nat) :
  descending degree_bits -> degree_bits <> [] ->
  cap_height <= List.last degree_bits 0 + rate_bits -> rate_bits <= max cap_height 5 ->
  exists arities, batch_reduction_arity_bits degree_bits rate_bits cap_height = Some arities /\
    List.Forall (fun a => 1 <= a <= 3) arities /\
    let rounds := degrees_from (List.hd 0 degree_bits) arities in
    (forall d, List.In d degree_bits -> List.In d rounds) /\
    let final := List.last rounds 0 in
    cap_height <= final + rate_bits <= max cap_height 5 + 2 /\ (final + rate_bits < 5 -> final = List.last degree_bits 0).
Proof.
  intros Hd Hne Hc Hr. unfold batch_reduction_arity_bits, fri_degrees. destruct degree_bits as [|d0 ds]; [congruence|].
  set (lowest := List.last (d0 :: ds) 0) in *. rewrite (proj2 (Nat.leb_le _ _)) by assumption. cbn [negb].
  rewrite (proj2 (Nat.ltb_ge _ _)) by lia.
  set (last_bits := min (lowest + rate_bits) (max cap_height 5) - rate_bits).
  destruct (rev_step_at last_bits lowest ltac:(unfold last_bits; lia)) as (l & e & E & Eh & Ec & E1 & E2). rewrite E.
  destruct (segments_at (d0 :: ds) (l ++ [e])) as (I1 & I2 & I3 & I4 & I5); [assumption|congruence|intros H; apply app_eq_nil in H as [_ H]; discriminate|exact Eh|exact Ec|].
  cbn zeta in *. eexists. split; [reflexivity|]. split; [now apply arities_of_windows|].
  rewrite <- I2, degrees_of_windows by assumption. split; [assumption|]. rewrite I5, List.last_last.
  assert (e <= lowest).
  { clear -Ec Eh. clearbody lowest. destruct l as [|y l]; cbn in Eh; [lia|]. subst y. revert Ec. generalize lowest. induction l as [|x l IH]; intros n Hc; cbn [app chain] in Hc; [lia|].
    destruct Hc as (? & ? & Hc). specialize (IH x Hc). lia. }
  unfold last_bits in *. split; lia.
Qed.
Theorem C86_defined (degree_bits : list nat) (rate_bits cap_height : nat) :
  (exists arities, batch_reduction_arity_bits degree_bits rate_bits cap_height = Some arities) <->
  degree_bits <> [] /\ cap_height <= List.last degree_bits 0 + rate_bits /\ rate_bits <= max cap_height 5.
Proof.
  unfold batch_reduction_arity_bits, fri_degrees. destruct degree_bits as [|d0 ds]; [split; [intros [? ?]; discriminate|intros [? _]; congruence]|].
  set (lowest := List.last (d0 :: ds) 0). destruct (cap_height <=? lowest + rate_bits) eqn:E1; cbn [negb].
  - apply Nat.leb_le in E1. destruct (min (lowest + rate_bits) (max cap_height 5) <? rate_bits) eqn:E2.
    + apply Nat.ltb_lt in E2. split; [intros [? ?]; discriminate|intros (_ & _ & H); lia].
    + apply Nat.ltb_ge in E2. split; [intros _; split; [congruence|lia]|intros _; eauto].
  - apply Nat.leb_gt in E1. split; [intros [? ?]; discriminate|intros (_ & H & _); lia].
Qed.
(** The degrees of the batched tables are such a list. *)
Theorem C86_degrees (K : nat) (pub : list nat) (deg : nat -> nat) :
  descending (sort_degree_bits K pub deg) /\ forall d, List.In d (sort_degree_bits K pub deg) <-> exists k, is_batched K pub k /\ deg k = d.
Proof.
  split.
  - pose proof (ds_sorted K pub deg) as H. induction H as [|x l Hs IH Hx]; [exact I|]. destruct l as [|y l]; [exact I|]. split; [|exact IH].
    now inversion Hx.
  - intros d. rewrite ds_in. split; intros [k [H E]]; exists k; (split; [now apply in_batched|assumption]).
Qed.
(** The cases of the code's tests, and a cap that is too large *)
Example C86_rounds_ex : batch_reduction_arity_bits [15; 8; 6; 5; 3] 1 4 = Some [3; 3; 1; 2; 1; 2] /\ batch_reduction_arity_bits [8; 6; 5; 3] 2 6 = None /\ batch_reduction_arity_bits [15; 8; 6; 5; 3] 2 0 = Some [3; 3; 1; 2; 1; 2] /\ degrees_from 15 [3; 3; 1; 2; 1; 2] = [15; 12; 9; 8; 6; 5; 3] /\
  batch_reduction_arity_bits [15; 2] 1 4 = None /\ batch_reduction_arity_bits [] 1 0 = None /\ batch_reduction_arity_bits [9] 7 4 = None.
Proof. repeat split; vm_compute; reflexivity. Qed.
Example C86_degrees_ex : sort_degree_bits 5 [2] (nth_default 0 [3; 5; 9; 3; 4]) = [5; 4; 3].
Proof. reflexivity. Qed.

Print Assumptions C86_rounds.
Print Assumptions C86_defined.
Print Assumptions C86_degrees.
