(** The transcript: which messages the prover and the verifier of a batched proof absorb, and where they draw challenges
    (circuits/src/stark/batch_prover.rs, circuits/src/stark/batch_verifier.rs, circuits/src/stark/proof.rs), with plonky2's duplex challenger. *)
From Coq Require Export ZArith Lia List Bool.
Export ListNotations.
Open Scope nat_scope.

Section Challenger.
  Context {A : Type} (perm : list A -> list A).
  (** plonky2's Challenger: the sponge's state (12 elements, rate 8), elements absorbed but not yet permuted, challenges not yet handed out *)
  Record challenger := mkChal { sponge : list A; input : list A; output : list A }.
  Definition RATE : nat := 8.
  (** Challenger::duplexing: the inputs overwrite the beginning of the state *)
  Definition duplexing (c : challenger) : challenger :=
    let s := perm (input c ++ skipn (length (input c)) (sponge c)) in mkChal s [] (firstn RATE s).
  (** Challenger::observe_element *)
  Definition observe (c : challenger) (x : A) : challenger :=
    let c' := mkChal (sponge c) (input c ++ [x]) [] in if length (input c') =? RATE then duplexing c' else c'.
  (** Challenger::get_challenge: the last of the outputs; [None] is the unreachable panic of an empty rate *)
  Definition get_challenge (c : challenger) : challenger * option A :=
    let c' := match input c, output c with [], _ :: _ => c | _, _ => duplexing c end in
    (mkChal (sponge c') (input c') (removelast (output c')), last (map Some (output c')) None).
  (** Challenger::compact *)
  Definition compact (c : challenger) : challenger :=
    let c' := match input c with [] => c | _ => duplexing c end in mkChal (sponge c') (input c') [].

  Inductive op := Observe (xs : list A) | Draw (n : nat) | Compact.
  Fixpoint draw (n : nat) (c : challenger) : challenger * list (option A) :=
    match n with O => (c, []) | S n' => let '(c1, x) := get_challenge c in let '(c2, xs) := draw n' c1 in (c2, x :: xs) end.
  Definition step (c : challenger) (o : op) : challenger * list (option A) :=
    match o with Observe xs => (fold_left observe xs c, []) | Draw n => draw n c | Compact => (compact c, []) end.
  (** All challenges drawn by a sequence of operations *)
  Fixpoint run (c : challenger) (os : list op) : list (option A) :=
    match os with [] => [] | o :: os' => let '(c', xs) := step c o in xs ++ run c' os' end.

  (** The messages of one proof *)
  Record messages := mkMsgs { m_zs : list A; m_quotient : list A; m_openings : list A; m_fri_caps : list (list A); m_final : list A; m_pow : A }.
  (** plonky2's fri_challenges: a cap and an extension challenge (D = 2) per round, the final polynomial, the proof of work, the queries *)
  Definition fri (queries : nat) (m : messages) : list op :=
    flat_map (fun cap => [Observe cap; Draw 2]) (m_fri_caps m) ++ [Observe (m_final m); Observe [m_pow m]; Draw 1; Draw queries].
  (** circuits/src/stark/prover.rs:268-390 prove_single_table and circuits/src/stark/proof.rs:62-108 StarkProof::get_challenges *)
  Definition single (num_challenges queries : nat) (m : messages) : list op :=
    [Observe (m_zs m); Draw num_challenges; Observe (m_quotient m); Draw 2; Observe (m_openings m)] ++ fri queries m.
  (** circuits/src/stark/batch_prover.rs:617-758 and batch_verifier.rs:64-104: the batched tables' openings one table after the other *)
  Definition batched (num_challenges queries : nat) (m : messages) (openings : list (list A)) : list op :=
    [Observe (m_zs m); Draw num_challenges; Observe (m_quotient m); Draw 2] ++ map Observe openings ++ fri queries m.

  (** A table of the proof, in the order of TableKind; traces of the tables, of the batch *)
  Variable kinds : list Z.
  Variable trace : Z -> list A.
  Variable batch_trace : list A.
  Variable table : Z -> messages.
  Variable batch : messages.
  Definition contains (public : list Z) (k : Z) : bool := existsb (Z.eqb k) public.
  Definition batch_openings (public : list Z) : list (list A) := map (fun k => m_openings (table k)) (filter (fun k => negb (contains public k)) kinds).
  (** circuits/src/stark/batch_prover.rs:436-470, 540-560, 617-758: caps in the order of the tables *)
  Definition prover_ops (num_challenges queries : nat) (public : list Z) : list op :=
    map (fun k => Observe (trace k)) (filter (contains public) kinds) ++ [Observe batch_trace; Draw (2 * num_challenges)] ++
    flat_map (fun k => single num_challenges queries (table k)) (filter (contains public) kinds) ++ batched num_challenges queries batch (batch_openings public).
  (** circuits/src/stark/batch_verifier.rs:43-104 (the same in recursive_verifier.rs:336-424): caps in the order of the slice; compacted before each public table *)
  Definition verifier_ops (num_challenges queries : nat) (public : list Z) : list op :=
    map (fun k => Observe (trace k)) public ++ [Observe batch_trace; Draw (2 * num_challenges)] ++
    flat_map (fun k => Compact :: single num_challenges queries (table k)) (filter (contains public) kinds) ++ batched num_challenges queries batch (batch_openings public).
End Challenger.
Arguments op A : clear implicits.
Arguments challenger A : clear implicits.
Arguments messages A : clear implicits.
