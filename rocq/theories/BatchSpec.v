(** What the batched proof is about, independently of how indices are computed (see BatchModel for the vocabulary of tables). *)
From Verif Require Import Word BatchModel.
From stdpp Require Import list.
Open Scope nat_scope.

Section Spec.
  Context (K : nat) (pub : list nat) (deg : nat -> nat).
  (** A batched table: one of the K tables that is not public *)
  Definition is_batched (k : nat) : Prop := k < K /\ ~ List.In k pub.
  (** A table comes before another one in a commitment when it is longer, or of the same length and earlier in the order of tables. *)
  Definition before (a b : nat) : bool := (deg b <? deg a) || ((deg a =? deg b) && (a <? b)).
  Fixpoint total_of (count : nat -> nat) (p : nat -> bool) (n : nat) : nat :=
    match n with O => 0 | S n' => (if p n' && negb (existsb (Nat.eqb n') pub) then count n' else 0) + total_of count p n' end.
  (** The number of polynomials of the tables before table [k]: where its own ones start *)
  Definition offset (count : nat -> nat) (k : nat) : nat := total_of count (fun a => before a k) K.
  (** The same within its degree: where its polynomials start in the leaves of the layer *)
  Definition layer_offset (count : nat -> nat) (k : nat) : nat := total_of count (fun a => (deg a =? deg k) && (a <? k)) K.
End Spec.

(** The openings that belong to table [k]: the values of its own polynomials in the three commitments, where [n o] is how many there are
    and [off o] where they start. *)
Definition own_openings {V A} (eval : A -> nat -> nat -> V) (committed : nat -> nat -> A) (d : nat) (off n : nat -> nat) : opening_set V :=
  let values o j := map (fun i => eval (committed o (off o + i)) d j) (seq 0 (n o)) in
  mkOpenings (values 0 0) (values 0 1) (values 1 0) (values 1 1) (values 1 2) (values 2 0).

(** How many polynomials a table has, by its constraint system *)
Definition system_count {V} (S : system V) (o k : nat) : nat :=
  match o with 0 => s_columns S k | 1 => s_ctls S k | _ => s_challenges S * s_factor S k end.

(** The constraints of table [k] hold at the point of the openings [s], for every challenge *)
Definition quotient_identity {V} (S : system V) (k : nat) (s : opening_set V) : Prop :=
  forall i, i < s_challenges S ->
    s_vanishing S k (local_values s) (next_values s) (ctl_zs s) (ctl_zs_next s) !! i =
    Some (s_recombine S k (firstn (s_factor S k) (skipn (i * s_factor S k) (quotient_polys s)))).

(** The change to the openings of a table that makes the verifier skip its constraints *)
Definition hide_quotient {V} (s : opening_set V) : opening_set V :=
  mkOpenings (local_values s) (next_values s) (ctl_zs s ++ quotient_polys s) (ctl_zs_next s) (ctl_zs_last s) [].

(** Degrees in the rounds of FRI *)
Fixpoint descending (l : list nat) : Prop := match l with x :: l' => match l' with y :: _ => y < x /\ descending l' | [] => True end | [] => True end.

(** The oracles of an honest prover: the polynomials [polys o k] of the tables, committed together *)
Definition oracles {A} (K : nat) (pub : list nat) (len : A -> nat) (dflt : A) (polys : nat -> nat -> list A) (o i : nat) : A :=
  List.nth i (committed_polys K pub len (polys o)) dflt.
(** Every table has as many polynomials as its system asks for, of the length of its trace *)
Definition well_sized {V A} (K : nat) (pub : list nat) (deg : nat -> nat) (S : system V) (len : A -> nat) (polys : nat -> nat -> list A) : Prop :=
  forall k, is_batched K pub k -> forall o, o < 3 -> length (polys o k) = system_count S o k /\ forall p, List.In p (polys o k) -> len p = 2 ^ deg k.

(** The degrees (in bits) of the polynomials before and after each round of FRI, when a round with arity [a] bits divides the degree by 2^a *)
Fixpoint degrees_from (d : nat) (arities : list nat) : list nat := match arities with [] => [d] | a :: arities => d :: degrees_from (d - a) arities end.
