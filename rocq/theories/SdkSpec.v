(** What the SDK is supposed to compute, independently of its algorithms. *)
From Verif Require Import Word SdkModel.

Section Tree.
  Variable two : digest -> digest -> digest.

  (** One round of pairing neighbours; an odd last element is kept. *)
  Fixpoint pair_round (l : list digest) : list digest :=
    match l with
    | a :: b :: r => two a b :: pair_round r
    | _ => l
    end.
  (** [Balanced l d]: rounds of pairing reduce [l] to the single digest [d]. *)
  Inductive Balanced : list digest -> digest -> Prop :=
  | BalOne d : Balanced [d] d
  | BalRound a b l d : Balanced (pair_round (a :: b :: l)) d -> Balanced (a :: b :: l) d.

  (** [PrefixRoot l d]: [d] is the root of the binary tree over the (address, digest) leaves [l] that
      splits on the highest bit in which addresses differ:
      - no leaves: the default digest;
      - all leaves at one address: their balanced combination;
      - otherwise the leaves are [l1 ++ l2] where, above some bit [b], all addresses agree, bit
        [b] is 0 throughout [l1] and 1 throughout [l2]; the root hashes the two sub-roots. *)
  Inductive PrefixRoot : list (Z * digest) -> digest -> Prop :=
  | PREmpty : PrefixRoot [] default_id
  | PRBucket l a d : l <> [] -> Forall (fun x => fst x = a) l -> Balanced (map snd l) d -> PrefixRoot l d
  | PRSplit l1 l2 b p d1 d2 :
      l1 <> [] -> l2 <> [] -> 0 <= b ->
      Forall (fun x => fst x / 2 ^ b = 2 * p) l1 ->
      Forall (fun x => fst x / 2 ^ b = 2 * p + 1) l2 ->
      PrefixRoot l1 d1 -> PrefixRoot l2 d2 ->
      PrefixRoot (l1 ++ l2) (two d1 d2).
End Tree.

(** Leaves sorted by address (equal addresses in any order). *)
Definition SortedLeaves (l : list (Z * digest)) : Prop :=
  forall i j x y, (i < j)%nat -> l !! i = Some x -> l !! j = Some y -> fst x <= fst y.
Definition LeafRange (l : list (Z * digest)) : Prop := Forall (fun x => u64 (fst x)) l.

(** The leaves have exactly two distinct addresses and these differ in the top bit. *)
Definition TwoHalves (l : list (Z * digest)) : Prop :=
  exists lo hi, lo < 2 ^ 63 <= hi /\ lo ∈ map fst l /\ hi ∈ map fst l /\
    forall x, x ∈ l -> fst x = lo \/ fst x = hi.

(** The calls a tree of native actions makes, in the order they begin, when run by [who]. *)
Fixpoint calls_of (who : progid) (a : action) : list cpc :=
  match a with
  | ACall r arg body ret => CPC who r arg ret :: flat_map (calls_of r) body
  | _ => []
  end.
(** The events emitted by program [id] during actions run by [who], in order. *)
Fixpoint events_of (id who : progid) (a : action) : list event :=
  match a with
  | ACall r _ body _ => flat_map (events_of id r) body
  | AEmit e => if decide (id = who) then [e] else []
  | AInput _ _ => []
  end.
(** The bytes program [id] writes to its public ([pub] = true) or private input tape. *)
Fixpoint input_of (pub : bool) (id who : progid) (a : action) : list Z :=
  match a with
  | ACall r _ body _ => flat_map (input_of pub id r) body
  | AEmit _ => []
  | AInput q b => if decide (id = who) then if Bool.eqb pub q then b else [] else []
  end.
(** Nobody emits events or writes inputs under the default (null) identity. *)
Fixpoint attributed (who : progid) (a : action) : Prop :=
  match a with
  | ACall r _ body _ => (fix go l := match l with [] => True | x :: t => attributed r x /\ go t end) body
  | _ => who <> default_id
  end.

(** Histories of the call interface inside the VM: what the guest observed, one entry per
    call_send / call_receive. [deA], [deR] are the (de)serialisers of that call's types. *)
Section Hist.
  Context {V : Type} `{EqDecision V}.
  Inductive call_event :=
  | Sent (deA deR : list Z -> V) (recipient : progid) (arg ret : V)
  | Received (deA deR : list Z -> V) (who : progid) (arg ret : V)
  | NoMessage.
  Definition veqb (a b : V) : bool := if decide (a = b) then true else false.
  Inductive vm_hist : vm_calls -> list call_event -> vm_calls -> Prop :=
  | HNil t : vm_hist t [] t
  | HSend t deA deR r arg ret t1 evs t2 :
      vm_send veqb deA deR t r arg = Some (ret, t1) -> vm_hist t1 evs t2 ->
      vm_hist t (Sent deA deR r arg ret :: evs) t2
  | HRecv t deA deR who arg ret t1 evs t2 :
      vm_receive deA deR t = Some (Some (who, arg, ret), t1) -> vm_hist t1 evs t2 ->
      vm_hist t (Received deA deR who arg ret :: evs) t2
  | HNone t (deA deR : list Z -> V) t1 evs t2 :
      vm_receive deA deR t = Some (None, t1) -> vm_hist t1 evs t2 ->
      vm_hist t (NoMessage :: evs) t2.

  (** the tape message [m] is what the observation says *)
  Definition explains (self : progid) (e : call_event) (m : cpc) : Prop :=
    match e with
    | Sent deA deR r arg ret =>
        caller m = self /\ callee m = r /\ deA (argument m) = arg /\ deR (return_ m) = ret
    | Received deA deR who arg ret =>
        callee m = self /\ caller m = who /\ who <> self /\ deA (argument m) = arg /\ deR (return_ m) = ret
    | NoMessage => False
    end.
  Definition is_message (e : call_event) : bool := match e with NoMessage => false | _ => true end.

  (** what program [self] itself does in a recorded run: one observation per message it takes part in *)
  Definition observation (deA deR : list Z -> V) (self : progid) (m : cpc) : list call_event :=
    if decide (caller m = self) then [Sent deA deR (callee m) (deA (argument m)) (deR (return_ m))]
    else if decide (callee m = self) then [Received deA deR (caller m) (deA (argument m)) (deR (return_ m))]
    else [].
  (** the last message of the tape does not concern [self]: the program has to look once more *)
  Definition final_look (self : progid) (tape : list cpc) : list call_event :=
    match list.last tape with
    | Some m => if decide (caller m = self \/ callee m = self) then [] else [NoMessage]
    | None => []
    end.
End Hist.
Arguments call_event : clear implicits.

(** No message of somebody else stands directly before a message sent by [self]. *)
Definition no_foreign_before_send (self : progid) (tape : list cpc) : Prop :=
  forall i m m', tape !! i = Some m -> tape !! S i = Some m' -> caller m' = self ->
    caller m = self \/ callee m = self.

(** Bump allocation: a block is [ptr, ptr + bytes). *)
Fixpoint alloc_run (checks : bool) (end_ heap_pos : Z) (reqs : list (Z * Z)) : option (list (Z * Z)) :=
  match reqs with
  | [] => Some []
  | (bytes, align) :: r =>
      '(ptr, hp) ← alloc_aligned checks end_ heap_pos bytes align;
      rest ← alloc_run checks end_ hp r;
      Some ((ptr, bytes) :: rest)
  end.
Definition valid_layout (r : Z * Z) : Prop :=
  0 <= fst r <= 2147483647 /\ exists k, 0 <= k < 32 /\ snd r = 2 ^ k.

(** An input tape over the bytes [B]: [read_offset] may be anywhere up to what has been fetched. *)
Definition tape_over (B : list Z) (t : input_tape) : Prop :=
  exists n, (n <= length B)%nat /\ it_buf t = take n B /\ it_rest t = drop n B /\
    it_size_hint t = Z.of_nat (length B) /\ 0 <= it_offset t <= Z.of_nat n.
