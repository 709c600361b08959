(** Cross-table lookups as the prover and the verifier compute them: the tuples of a lookup are compressed to one
    field element with a random challenge, and the multiplicities are compared as a sum of fractions
    (circuits/src/cross_table_lookup.rs, circuits/src/stark/permutation.rs, circuits/src/public_sub_table.rs).
    A table taking part in a lookup is the list of its rows, each row already evaluated to (tuple, multiplicity): the
    evaluation of Column / ColumnSparse on a row is modelled where the tables are.  Field elements are integers modulo
    the prime [P]; the values the verifier reads off a proof (openings) are arbitrary integers.
    The polynomial machinery (low degree extension, quotients, FRI, the alphas that batch constraints, the transcript
    from which the challenges are drawn) is not modelled: a constraint is required to vanish at each point of the trace
    domain, as everywhere in this development. *)
From Verif Require Export Stark.
Open Scope Z_scope.

(** circuits/src/stark/permutation.rs:45-51 GrandProductChallenge *)
Record challenge := mkChallenge { ch_beta : Z; ch_gamma : Z }.

(** circuits/src/stark/permutation.rs:74-83 combine (the verifier's form) and
    circuits/src/cross_table_lookup.rs:193-205 compose_ctl_with_challenge (the prover's form, the same polynomial
    evaluated after composing the linear maps): reduce_with_powers(terms, beta) + gamma *)
Definition combine (c : challenge) (t : list Z) : Z := reduce_with_powers t (ch_beta c) + ch_gamma c.

(** circuits/src/cross_table_lookup.rs:226-228 degrees.rotate_right(1): the last row comes first *)
Definition rotate_right1 {A} (l : list A) : list A :=
  match rev l with [] => [] | x :: r => x :: rev r end.

(** circuits/src/cross_table_lookup.rs:234-240: the running sum of multiplicity * inverse *)
Fixpoint scan_sums (c : challenge) (acc : Z) (e : entries) : list Z :=
  match e with
  | [] => []
  | (t, f) :: e' => let acc' := (acc + f * finv (combine c t)) mod P in acc' :: scan_sums c acc' e'
  end.

(** circuits/src/cross_table_lookup.rs:207-245 partial_sums.  plonky2's batch_multiplicative_inverse panics when one of
    the values is zero: [None]. *)
Definition partial_sums (c : challenge) (e : entries) : option (list Z) :=
  if forallb (fun '(t, _) => negb (combine c t mod P =? 0)) e then Some (scan_sums c 0 (rotate_right1 e)) else None.

(** circuits/src/cross_table_lookup.rs:347-380 eval_cross_table_lookup_checks on the trace domain.  [z] is the
    auxiliary column, one value per row, and the successor of the last row is the first one. *)
Record z_checks (c : challenge) (e : entries) (z : list Z) : Prop := {
  zc_rows : length z = length e;
  (* consumer.constraint_last_row(next_z * combination - multiplicity) *)
  zc_last : forall t f z0, stdpp.list.last e = Some (t, f) -> z !! 0%nat = Some z0 -> fzero (z0 * combine c t - f);
  (* consumer.constraint_transition((next_z - local_z) * combination - multiplicity) *)
  zc_transition : forall i t f zi zn, e !! i = Some (t, f) -> z !! i = Some zi -> z !! S i = Some zn ->
    fzero ((zn - zi) * combine c t - f) }.

(** circuits/src/stark/proof.rs:224-262 ctl_zs_last: the value of [z] in the last row *)
Definition z_last (z : list Z) : Z := List.last z 0.

(** circuits/src/cross_table_lookup.rs:272-281 CrossTableLookup::new: the looked tables get the opposite filter *)
Definition negate (e : entries) : entries := map (fun '(t, f) => (t, - f)) e.
Definition ctl_new (looking looked : list entries) : list entries := looking ++ map negate looked.

(** circuits/src/public_sub_table.rs:54-83 get_values: the rows whose filter is one *)
Definition get_values (e : entries) : list (list Z) :=
  map fst (List.filter (fun '(_, f) => f mod P =? 1) e).

(** circuits/src/public_sub_table.rs:146-170 reduce_public_sub_tables_values, one sub table and one challenge: the sum
    of the inverses.  Field::inverse panics on zero: [None]. *)
Definition reduce_values (c : challenge) (vs : list (list Z)) : option Z :=
  if forallb (fun v => negb (combine c v mod P =? 0)) vs
  then Some (sumZ (map (fun v => finv (combine c v)) vs) mod P) else None.

(** ** The verifier's bookkeeping
    Openings are stored per table; a table is named by a number (TableKind). *)
Definition openings := Z -> list Z.
Definition pop (k : Z) (o : openings) : option Z * openings :=
  (hd_error (o k), fun k' => if k' =? k then tl (o k) else o k').
(** circuits/src/cross_table_lookup.rs:74-78: one opening per table of the lookup; [None] is the panic of unwrap *)
Fixpoint pop_all (ks : list Z) (o : openings) : option (list Z * openings) :=
  match ks with
  | [] => Some ([], o)
  | k :: ks' => match pop k o with
    | (Some x, o1) => match pop_all ks' o1 with Some (xs, o2) => Some (x :: xs, o2) | None => None end
    | (None, _) => None
    end
  end.
(** circuits/src/cross_table_lookup.rs:71-88: the lookups, once per challenge; [Some None] is Err *)
Fixpoint verify_lookups (ctls : list (list Z)) (o : openings) : option (option openings) :=
  match ctls with
  | [] => Some (Some o)
  | ks :: ctls' => match pop_all ks o with
    | Some (xs, o') => if sumZ xs mod P =? 0 then verify_lookups ctls' o' else Some None
    | None => None
    end
  end.
(** circuits/src/cross_table_lookup.rs:89-99: the public sub tables, once per challenge *)
Fixpoint verify_public (ks : list Z) (reduced o : openings) : bool :=
  match ks with
  | [] => true
  | k :: ks' => let '(r, reduced') := pop k reduced in let '(x, o') := pop k o in
    match r, x with
    | Some r, Some x => (r mod P =? x mod P) && verify_public ks' reduced' o'
    | None, None => verify_public ks' reduced' o'
    | _, _ => false
    end
  end.
(** circuits/src/cross_table_lookup.rs:60-102 verify_cross_table_lookups_and_public_sub_tables: [None] panic,
    [Some false] Err, [Some true] Ok.  The recursive verifier's circuit (lines 106-143) connects the same values. *)
Definition verify_ctls_and_public (num_challenges : nat) (ctls : list (list Z)) (pubs : list Z) (reduced o : openings) : option bool :=
  match verify_lookups (List.concat (List.repeat ctls num_challenges)) o with
  | Some (Some o') => Some (verify_public (List.concat (List.repeat pubs num_challenges)) reduced o')
  | Some None => Some false
  | None => None
  end.

(** circuits/src/cross_table_lookup.rs:145-175 cross_table_lookup_data (into_group_map keeps the order of the tables
    within a kind) and circuits/src/stark/prover.rs:247-253 (the z polynomials of the lookups come before those of the public sub
    tables): the values of a table, in the order in which the lookups name it *)
Definition grouped (l : list (Z * Z)) : openings := fun k => map snd (List.filter (fun x => fst x =? k) l).
