(** What the compression of lookups is for, said without the compression: the balance of multiplicities
    ([ctl_ok], the explicit check of circuits/src/cross_table_lookup.rs:484-566), and how many challenges may
    deceive the verifier. *)
From Verif Require Export LogupModel.
Open Scope Z_scope.

(** A challenge drawn from the field *)
Definition field_challenge (c : challenge) : Prop := canon (ch_beta c) /\ canon (ch_gamma c).

(** The verifier is satisfied with a lookup under a challenge: there are auxiliary columns that satisfy the constraints
    of every table and whose last values add up to zero. *)
Definition lookup_accepted (looking looked : list entries) (c : challenge) : Prop :=
  exists zs, Forall2 (z_checks c) (ctl_new looking looked) zs /\ fzero (sumZ (map z_last zs)).

(** The same for a public sub table with the claimed values [vs] *)
Definition public_accepted (e : entries) (vs : list (list Z)) (c : challenge) : Prop :=
  exists z r, z_checks c e z /\ reduce_values c vs = Some r /\ fzero (z_last z - r).

(** No tuple of the tables is compressed to zero *)
Definition nonzero_denominators (c : challenge) (tables : list entries) : Prop :=
  Forall (Forall (fun '(t, _) => ~ fzero (combine c t))) tables.

(** All the tuples of a lookup have [w] columns *)
Definition all_width (w : nat) (tables : list entries) : Prop :=
  Forall (Forall (fun '(t, _) => length t = w)) tables.

(** The number of rows of the tables of a lookup *)
Definition total_rows (tables : list entries) : Z := Z.of_nat (length (List.concat tables)).

(** The values of a public sub table as one side of a lookup *)
Definition as_entries (vs : list (list Z)) : entries := map (fun v => (v, 1)) vs.

(** At most [n] lists of [k] challenges of the field have the property for each of their challenges *)
Definition at_most (n : Z) (k : nat) (Q : challenge -> Prop) : Prop :=
  forall L : list (list challenge), NoDup L ->
    Forall (fun cs => length cs = k /\ Forall (fun c => field_challenge c /\ Q c) cs) L -> Z.of_nat (length L) <= n.
