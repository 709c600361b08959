(** What it means that a table satisfies its constraints, row by row. *)
From mathcomp Require Import all_ssreflect all_algebra.
From Verif Require Import QuotModel.
Import GRing.Theory.
Local Open Scope ring_scope.

Section Spec.
  Variable F : fieldType.
  (** Row [i] of the columns [p]: their values at the [i]-th power of the generator *)
  Definition row (g : F) (p : nat -> {poly F}) (i j : nat) : F := (p j).[g ^+ i].
  Definition applies (n : nat) (k : kind) (i : nat) : bool :=
    match k with Always => true | Transition => i.+1 != n | FirstRow => i == 0%N | LastRow => i.+1 == n end.
  (** The value of a constraint at two rows *)
  Fixpoint value (this following : nat -> F) (e : cexpr F) : F :=
    match e with
    | CConst c => c
    | CLocal j => this j
    | CNext j => following j
    | CAdd a b => value this following a + value this following b
    | CSub a b => value this following a - value this following b
    | CMul a b => value this following a * value this following b
    end.
  (** A constraint holds at row [i] of [n]: of this row and the next, the one after the last being the first *)
  Definition holds_at (n : nat) (rows : nat -> nat -> F) (c : constraint F) (i : nat) : bool :=
    applies n c.1 i ==> (value (rows i) (rows (i.+1 %% n)%N) c.2 == 0).
  Definition satisfied (n : nat) (rows : nat -> nat -> F) (cs : seq (constraint F)) : Prop :=
    forall c i, List.In c cs -> (i < n)%N -> holds_at n rows c i.
End Spec.

(** The degree of a constraint in the columns, and with its filter *)
Fixpoint cdeg {F : Type} (e : cexpr F) : nat :=
  match e with CConst _ => 0 | CLocal _ | CNext _ => 1 | CAdd a b | CSub a b => maxn (cdeg a) (cdeg b) | CMul a b => (cdeg a + cdeg b)%N end.
Definition constraint_degree {F : Type} (c : constraint F) : nat := match c.1 with FirstRow | LastRow => (cdeg c.2).+1 | _ => cdeg c.2 end.
Definition degree {F : Type} (cs : seq (constraint F)) : nat := foldr (fun c d => maxn (cdeg c.2) d) 0%N cs.
Arguments row {F}. Arguments value {F}. Arguments holds_at {F}. Arguments satisfied {F}.
