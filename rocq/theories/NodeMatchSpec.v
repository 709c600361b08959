(** Histories of the matches accumulator and what they amount to. *)
From stdpp Require Import prelude gmap.
From Verif Require Import Field RecModel NodeTreeModel NodeTreeSpec NodeMatchModel.
Open Scope Z_scope.

(** the calls made while a block is collected *)
Inductive mop (K : Type) := MIngest (key : K) (evs : list (Z * dig)) | MReady (key : K).
Arguments MIngest {K}. Arguments MReady {K}.
Section Run.
  Context {K : Type} {KE : EqDecision K} {KC : Countable K} (H : list Z -> dig).
  Fixpoint run_ops (s : matches) (ops : list (mop K)) : option matches :=
    match ops with
    | [] => Some s
    | MIngest k evs :: r => run_ops (ingest_events H s k evs) r
    | MReady k :: r => match ready_tx H s k with Some s' => run_ops s' r | None => None end
    end.
  (** all events ingested, in the order of arrival *)
  Definition ingested (ops : list (mop K)) : list (Z * dig) := flat_map (fun o => match o with MIngest _ evs => evs | MReady _ => [] end) ops.
End Run.
(** the hashes of the events at one address, in order *)
Definition hashes_at (a : Z) (l : list (Z * dig)) : list dig := map snd (base.filter (fun e => fst e = a) l).
Definition addr_hash {E} (x : dig * Z * E) : Z * dig := (ev_ad x, ev_hs x).
