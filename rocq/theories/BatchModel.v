(** Batched proofs: how the polynomials of the tables are laid out in the three commitments, which of them are opened where, and
    how the verifier assembles the openings of a proof (circuits/src/stark/batch_prover.rs, circuits/src/stark/batch_verifier.rs,
    circuits/src/stark/proof.rs, circuits/src/stark/verifier.rs).
    Tables (TableKind) are the numbers below [K], in the order of all_kind!; [pub] is public_table_kinds, [deg] degree_bits.
    Polynomials and values are abstract.  plonky2's batch FRI is ideal: it accepts exactly the true evaluations of the committed
    polynomials, whatever it is asked to open; hashing, the transcript and the arithmetic of constraints are not modelled. *)
From Verif Require Import Word.
From stdpp Require Import list.
Open Scope nat_scope.

Section Layout.
  Context (K : nat) (pub : list nat) (deg : nat -> nat).
  Definition all_kinds : list nat := seq 0 K.
  (** public_table_kinds.contains(&kind) *)
  Definition is_public (k : nat) : bool := existsb (Nat.eqb k) pub.
  Definition batched : list nat := List.filter (fun k => negb (is_public k)) all_kinds.

  (** sort_unstable on numbers, reverse, dedup *)
  Fixpoint insert_nat (x : nat) (l : list nat) : list nat := match l with [] => [x] | y :: l' => if x <=? y then x :: l else y :: insert_nat x l' end.
  Definition sort_nat (l : list nat) : list nat := fold_right insert_nat [] l.
  Fixpoint dedup (l : list nat) : list nat :=
    match l with [] => [] | x :: l' => match l' with [] => [x] | y :: _ => if x =? y then dedup l' else x :: dedup l' end end.
  (** circuits/src/stark/batch_prover.rs:106-119 sort_degree_bits *)
  Definition sort_degree_bits : list nat := dedup (rev (sort_nat (map deg batched))).

  (** circuits/src/stark/batch_prover.rs:51-104 BatchFriOracleIndices::new: a pass over the tables for every degree *)
  Record indices := mkIndices { bmt_start : nat -> option nat; poly_start : nat -> option nat; degree_index : nat -> option nat }.
  Definition upd (f : nat -> option nat) (k v : nat) : nat -> option nat := fun k' => if k' =? k then Some v else f k'.
  Record layout := mkLayout { l_bmt : nat -> option nat; l_poly : nat -> option nat; l_next_bmt : nat; l_next_poly : nat }.
  Definition visit (count : nat -> nat) (d : nat) (st : layout) (k : nat) : layout :=
    if negb (is_public k) && (deg k =? d)
    then mkLayout (upd (l_bmt st) k (l_next_bmt st)) (upd (l_poly st) k (l_next_poly st)) (l_next_bmt st + count k) (l_next_poly st + count k)
    else st.
  Definition visit_degree (count : nat -> nat) (st : layout) (d : nat) : layout :=
    fold_left (visit count d) all_kinds (mkLayout (l_bmt st) (l_poly st) 0 (l_next_poly st)).
  Fixpoint position (x : nat) (l : list nat) : option nat :=
    match l with [] => None | y :: l => if y =? x then Some 0 else option_map S (position x l) end.
  Definition indices_new (count : nat -> nat) : indices :=
    let start k := if is_public k then None else Some 0 in
    let st := fold_left (visit_degree count) sort_degree_bits (mkLayout start start 0 0) in
    mkIndices (l_bmt st) (l_poly st) (fun k => if is_public k then None else position (deg k) sort_degree_bits).

  (** circuits/src/stark/batch_prover.rs:383-389, 540-546, 643-649: the polynomials of the batched tables, in the order of the
      tables, sorted (stably) by decreasing length *)
  Section Order.
    Context {A : Type} (len : A -> nat).
    Fixpoint insert_desc (x : A) (l : list A) : list A := match l with [] => [x] | y :: l' => if len y <=? len x then x :: l else y :: insert_desc x l' end.
    Definition sort_desc (l : list A) : list A := fold_right insert_desc [] l.
  End Order.
  Definition committed_polys {A} (len : A -> nat) (polys : nat -> list A) : list A := sort_desc len (flat_map polys batched).
  (** plonky2's BatchFriOracle: the polynomials of one degree make up one layer of the Merkle tree's leaves *)
  Definition layer {A} (len : A -> nat) (polys : list A) (n : nat) : list A := List.filter (fun p => len p =? n) polys.
  Definition slice {A} (start count : nat) (l : list A) : list A := firstn count (skipn start l).

  (** ** What is opened *)
  (** starky's fri_instance (outside the repository) for a table with [c 0] trace, [c 1] auxiliary and [c 2] quotient polynomials: all at
      zeta, all but the quotients at g zeta, the auxiliary ones at the last point of the subgroup.  A polynomial is named by its oracle
      and its index. *)
  Definition polys_of (o n : nat) : list (nat * nat) := map (fun i => (o, i)) (seq 0 n).
  Definition fri_instance (c : nat -> nat) (j : nat) : list (nat * nat) :=
    match j with
    | 0 => polys_of 0 (c 0) ++ polys_of 1 (c 1) ++ polys_of 2 (c 2)
    | 1 => polys_of 0 (c 0) ++ polys_of 1 (c 1)
    | _ => polys_of 1 (c 1)
    end.
  (** circuits/src/stark/batch_prover.rs:244-300 merge_fri_instances (and 302-353, the same on targets).  The instances are those of the
      tables [ks]; [start] is polynomial_index_start.  That the points and the blinding of the instances agree is clear: they depend on
      the degree only. *)
  Fixpoint merge_fri_instances (count : nat -> nat -> nat) (ks : list nat) (start : nat -> nat) : (nat -> list (nat * nat)) * (nat -> nat) :=
    match ks with
    | [] => (fun _ => [], start)
    | k :: ks =>
        let shifted j := map (fun '(o, i) => (o, i + start o)) (fri_instance (fun o => count o k) j) in
        let '(rest, start') := merge_fri_instances count ks (fun o => start o + count o k) in
        (fun j => shifted j ++ rest j, start')
    end.
  (** circuits/src/stark/batch_prover.rs:150-174 the groups and their merged instances; merge_fri_instances asserts that a group is not
      empty: [None] *)
  Definition group (d : nat) : list nat := List.filter (fun k => negb (is_public k)) (List.filter (fun k => deg k =? d) all_kinds).
  Fixpoint merge_groups (count : nat -> nat -> nat) (ds : list nat) (start : nat -> nat) : option (list (nat -> list (nat * nat))) :=
    match ds with
    | [] => Some []
    | d :: ds =>
        match group d with
        | [] => None
        | ks => let '(ins, start') := merge_fri_instances count ks start in
            match merge_groups count ds start' with Some r => Some (ins :: r) | None => None end
        end
    end.
  Definition batch_fri_instances (count : nat -> nat -> nat) : option (list (nat -> list (nat * nat))) :=
    merge_groups count sort_degree_bits (fun _ => 0).
End Layout.

(** circuits/src/stark/proof.rs:209-228 StarkOpeningSet *)
Record opening_set (V : Type) := mkOpenings { local_values : list V; next_values : list V; ctl_zs : list V; ctl_zs_next : list V; ctl_zs_last : list V; quotient_polys : list V }.
Arguments mkOpenings {V}. Arguments local_values {V}. Arguments next_values {V}. Arguments ctl_zs {V}. Arguments ctl_zs_next {V}. Arguments ctl_zs_last {V}. Arguments quotient_polys {V}.
(** circuits/src/stark/proof.rs:302-325 to_fri_openings *)
Definition to_fri_openings {V} (s : opening_set V) (j : nat) : list V :=
  match j with
  | 0 => local_values s ++ ctl_zs s ++ quotient_polys s
  | 1 => next_values s ++ ctl_zs_next s
  | _ => ctl_zs_last s
  end.
(** circuits/src/stark/batch_verifier.rs:188-210: the openings of the tables of one degree, in the order of the tables *)
Definition fri_openings (K : nat) (pub : list nat) (deg : nat -> nat) {V} (proofs : nat -> opening_set V) (d j : nat) : list V :=
  flat_map (fun k => if (deg k =? d) && negb (is_public pub k) then to_fri_openings (proofs k) j else []) (all_kinds K).

(** [chunks] of a slice *)
Fixpoint chunks_from {V} (fuel n : nat) (l : list V) : list (list V) :=
  match fuel with O => [] | S f => match l with [] => [] | _ => firstn n l :: chunks_from f n (skipn n l) end end.
Definition chunks {V} (n : nat) (l : list V) : list (list V) := chunks_from (length l) n l.

(** The constraint system of a table, as the verifier uses it: the number of columns, of lookup polynomials, of quotient polynomials, the
    chunks of a quotient; the values of the combined constraints at zeta, one per challenge, computed from the openings of the columns
    and the first [s_ctls] pairs of openings of lookup polynomials; and the value of a quotient from the openings of its chunks,
    multiplied with that of the vanishing polynomial of the subgroup. *)
Record system (V : Type) := mkSystem {
  s_columns : nat -> nat; s_ctls : nat -> nat; s_challenges : nat; s_factor : nat -> nat;
  s_vanishing : nat -> list V -> list V -> list V -> list V -> list V;
  s_recombine : nat -> list V -> V }.
Arguments mkSystem {V}. Arguments s_columns {V}. Arguments s_ctls {V}. Arguments s_challenges {V}. Arguments s_factor {V}. Arguments s_vanishing {V}. Arguments s_recombine {V}.

(** circuits/src/stark/verifier.rs:90-167 verify_quotient_polynomials, for the openings the batched verifier hands to it.
    circuits/src/cross_table_lookup.rs:307-343 CtlCheckVars::from_proofs takes the pairs it needs from the front (and panics when there
    are too few).  vanishing_polys_zeta[i] panics beyond the challenges: false. *)
Definition verify_quotient {V} (eqb : V -> V -> bool) (S : system V) (k : nat) (s : opening_set V) : bool :=
  (length (local_values s) =? s_columns S k) && (length (next_values s) =? s_columns S k) &&
  (s_ctls S k <=? length (ctl_zs s)) && (s_ctls S k <=? length (ctl_zs_next s)) &&
  let v := s_vanishing S k (local_values s) (next_values s) (firstn (s_ctls S k) (ctl_zs s)) (firstn (s_ctls S k) (ctl_zs_next s)) in
  forallb (fun '(i, c) => match v !! i with Some x => eqb x (s_recombine S k c) | None => false end)
    (combine (seq 0 (length (chunks (s_factor S k) (quotient_polys s)))) (chunks (s_factor S k) (quotient_polys s))).
(** circuits/src/stark/verifier.rs:217-270 validate_proof_shape: the part about openings. batch_verify_proof does not call it for the
    batched tables (circuits/src/stark/batch_verifier.rs:126-152). *)
Definition valid_shape {V} (S : system V) (k : nat) (s : opening_set V) : bool :=
  (length (local_values s) =? s_columns S k) && (length (next_values s) =? s_columns S k) &&
  (length (ctl_zs s) =? s_ctls S k) && (length (ctl_zs_next s) =? s_ctls S k) && (length (ctl_zs_last s) =? s_ctls S k) &&
  (length (quotient_polys s) =? s_challenges S * s_factor S k).
(** The numbers of polynomials the verifier's FRI instances assume: the quotients by the stark and the configuration, the lookup polynomials
    by the length of ctl_zs_last (circuits/src/stark/batch_verifier.rs:154, 164-172) *)
Definition instance_counts {V} (S : system V) (proofs : nat -> opening_set V) (o k : nat) : nat :=
  match o with 0 => s_columns S k | 1 => length (ctl_zs_last (proofs k)) | _ => s_challenges S * s_factor S k end.

(** circuits/src/stark/batch_verifier.rs:28-222 batch_verify_proof, as far as the batched tables are concerned: the quotient identities, the
    check [lookups] on the last values of the lookup polynomials, and the openings.  [committed o i] is the polynomial [i] of oracle
    [o], [eval p d j] its value at the point of batch [j] of the tables of degree [d]; ideal FRI compares the lists of values. *)
Definition batch_accepts {V A} (eqb : V -> V -> bool) (K : nat) (pub : list nat) (deg : nat -> nat) (S : system V)
    (eval : A -> nat -> nat -> V) (committed : nat -> nat -> A) (lookups : (nat -> list V) -> Prop) (proofs : nat -> opening_set V) : Prop :=
  forallb (fun k => verify_quotient eqb S k (proofs k)) (batched K pub) = true /\
  lookups (fun k => ctl_zs_last (proofs k)) /\
  exists ins, batch_fri_instances K pub deg (instance_counts S proofs) = Some ins /\
    forall i d f, sort_degree_bits K pub deg !! i = Some d -> ins !! i = Some f -> forall j, j < 3 ->
      fri_openings K pub deg proofs d j = map (fun '(o, n) => eval (committed o n) d j) (f j).

(** circuits/src/stark/proof.rs:262-298 StarkOpeningSet::batch_new: the prover's openings of a table *)
Definition batch_new {V A} (eval : A -> nat -> nat -> V) (d : nat) (polys : nat -> list A) : opening_set V :=
  mkOpenings (map (fun p => eval p d 0) (polys 0)) (map (fun p => eval p d 1) (polys 0))
    (map (fun p => eval p d 0) (polys 1)) (map (fun p => eval p d 1) (polys 1)) (map (fun p => eval p d 2) (polys 1)) (map (fun p => eval p d 0) (polys 2)).

(** ** The rounds of the batched FRI *)
(** (lo..=hi).rev().step_by(3), with [hi + 1 - lo] as fuel *)
Fixpoint down_by_3 (fuel hi lo : nat) : list nat :=
  match fuel with O => [] | S f => if lo <=? hi then hi :: (if 3 <=? hi then down_by_3 f (hi - 3) lo else []) else [] end.
Definition rev_step_3 (lo hi : nat) : list nat := down_by_3 (S hi) hi lo.
Fixpoint windows (l : list nat) : list (nat * nat) :=
  match l with x :: l' => match l' with y :: _ => (x, y) :: windows l' | [] => [] end | [] => [] end.
(** circuits/src/stark/batch_prover.rs:850-881 batch_reduction_arity_bits; [None]: a panic (no degree, the assertion, or a negative number) *)
Definition fri_degrees (degree_bits : list nat) (rate_bits cap_height : nat) : option (list nat) :=
  match degree_bits with
  | [] => None
  | _ =>
      let lowest := List.last degree_bits 0 in
      if negb (cap_height <=? lowest + rate_bits) then None
      else if min (lowest + rate_bits) (max cap_height 5) <? rate_bits then None
      else
        let last_bits := min (lowest + rate_bits) (max cap_height 5) - rate_bits in
        Some (flat_map (fun '(d, next) => rev_step_3 (next + 1) d) (windows degree_bits) ++ rev_step_3 last_bits lowest)
  end.
Definition batch_reduction_arity_bits (degree_bits : list nat) (rate_bits cap_height : nat) : option (list nat) :=
  match fri_degrees degree_bits rate_bits cap_height with
  | Some ds => Some (map (fun '(d, next) => d - next) (windows ds))
  | None => None
  end.
