(** Model of node/src/block_proposer/matches.rs: which event hash the match proof of a block states. Proofs are represented by
    the event hash among their public inputs (recproofs accumulate_delta.rs:142-152,238-262: a leaf states the event's hash, a
    branch the hash of both, prove_one forwards; match_delta.rs:132-163,379: a match leaf forwards the accumulated hash, a
    branch combines). The object deltas the same proofs carry are in RecModel.v. *)
From stdpp Require Import prelude gmap sorting.
From Verif Require Import Field RecModel NodeTreeModel.
Open Scope Z_scope.

Section Matches.
  Context {K : Type} {KE : EqDecision K} {KC : Countable K} (H : list Z -> dig).
  (** matches.rs:58-67 Matches, OngoingAccum *)
  Record matches := Mt { mt_ongoing : gmap K (gmap Z dig); mt_ready : gmap Z dig }.
  (** 70-78 new *)
  Definition mt_new : matches := Mt ∅ ∅.
  (** 93-120 one event: address and hash (convert_event and the event hash are computed by the caller) *)
  Definition acc_one (m : gmap Z dig) (e : Z * dig) : gmap Z dig :=
    <[fst e := match m !! fst e with None => snd e | Some d => f2to1 H d (snd e) end]> m.
  (** 86-122 ingest_events *)
  Definition ingest_events (s : matches) (key : K) (evs : list (Z * dig)) : matches :=
    Mt (<[key := fold_left acc_one evs (default ∅ (mt_ongoing s !! key))]> (mt_ongoing s)) (mt_ready s).
  (** 136-162 ready_tx; the addresses of one transaction are distinct keys, so the hash map's order does not matter *)
  Definition ready_tx (s : matches) (key : K) : option matches :=
    match mt_ongoing s !! key with
    | None => None
    | Some acc => Some (Mt (delete key (mt_ongoing s)) (union_with (fun r p => Some (f2to1 H r p)) (mt_ready s) acc))
    end.
  (** the BTreeMap's iteration order: ascending keys *)
  Definition key_le (x y : Z * dig) : Prop := fst x <= fst y.
  #[global] Instance key_le_dec x y : Decision (key_le x y). Proof. unfold key_le. apply _. Defined.
  Definition in_order (m : gmap Z dig) : list (Z * dig) := merge_sort key_le (map_to_list m).
  (** 170-217 finalize: the event hash of the final proof ([None]: the unwrap of an empty reduction, or out of fuel) and the
      emptied accumulator *)
  Definition mt_finalize (fuel : nat) (s : matches) : option dig * matches :=
    (match by_address add1 (fun _ => f2to1 H) fuel (map (fun x => (base (fst x), snd x)) (in_order (mt_ready s))) with
     | Some (Some (_, d)) => Some d | _ => None end,
     Mt (mt_ongoing s) ∅).
End Matches.
