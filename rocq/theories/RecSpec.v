(** Specifications for the recursive-proof circuits, independent of how the circuits are laid out. *)
From stdpp Require Import prelude.
From Verif Require Import Field RecModel.
Open Scope Z_scope.

(** Binary trees and the root hash of a tree. *)
Inductive btree (A : Type) := BLeaf (a : A) | BNode (l r : btree A).
Arguments BLeaf {A}. Arguments BNode {A}.
Fixpoint leaves {A} (t : btree A) : list A :=
  match t with BLeaf a => [a] | BNode l r => leaves l ++ leaves r end.
Fixpoint tmap {A B} (f : A -> B) (t : btree A) : btree B :=
  match t with BLeaf a => BLeaf (f a) | BNode l r => BNode (tmap f l) (tmap f r) end.

(** [WfTree leaf branch t a]: [t] is a tree of statements that each satisfy [leaf], combined by [branch] into [a]. *)
Inductive WfTree {A} (leaf : A -> Prop) (branch : A -> A -> A -> Prop) : btree A -> A -> Prop :=
| WTLeaf a : leaf a -> WfTree leaf branch (BLeaf a) a
| WTNode tl tr l r a : WfTree leaf branch tl l -> WfTree leaf branch tr r -> branch l r a ->
    WfTree leaf branch (BNode tl tr) a.

(** [TreeRoot leaf node t h]: [h] is the root of [t] when leaves are hashed by [leaf] and pairs by [node]. *)
Inductive TreeRoot {A} (leaf : A -> dig -> Prop) (node : dig -> dig -> dig -> Prop) : btree A -> dig -> Prop :=
| TRLeaf a h : leaf a h -> TreeRoot leaf node (BLeaf a) h
| TRNode l r hl hr h : TreeRoot leaf node l hl -> TreeRoot leaf node r hr -> node hl hr h -> TreeRoot leaf node (BNode l r) h.
(** A possibly empty tree: a presence flag and a root that is zero when the tree is empty. *)
Definition ORoot {A} (leaf : A -> dig -> Prop) (node : dig -> dig -> dig -> Prop) (t : option (btree A)) (present : bool) (h : dig) : Prop :=
  match t with None => present = false /\ h = dzero | Some t => present = true /\ TreeRoot leaf node t h end.
Definition oleaves {A} (t : option (btree A)) : list A := match t with None => [] | Some t => leaves t end.

(** The eight little-endian bytes of a 64-bit word. *)
Definition le8 (w : Z) : list Z := map (fun i => (w / 2 ^ (8 * i)) mod 256) [0; 1; 2; 3; 4; 5; 6; 7].
Definition word_for (x w : Z) : Prop := 0 <= w < 2 ^ 64 /\ w mod P = x.

Section Spec.
  Variable HR : list Z -> dig -> Prop.
  (** hashing is a function, with results in the field, and no two different inputs were found to collide *)
  Definition hash_fn : Prop := forall x h h', HR x h -> HR x h' -> h = h'.
  Definition hash_dig : Prop := forall x h, HR x h -> dig_ok h.
  Definition hash_cf : Prop := forall x y h, HR x h -> HR y h -> x = y.
  (** nor was an input found that hashes to zero *)
  Definition hash_nz : Prop := forall x, ~ HR x dzero.

  Definition pair_hash (l r h : dig) : Prop := HR (delems l ++ delems r) h.
  (** [h] is the hash of the bytes of some 64-bit words that stand for the field elements [xs]. *)
  Definition WordsHash (xs : list Z) (h : dig) : Prop :=
    exists ws, Forall2 word_for xs ws /\ HR (concat (map le8 ws)) h.
  Definition vm_pair_hash (l r h : dig) : Prop := WordsHash (delems l ++ delems r) h.

  (** An event as the proofs see it: all fields are field elements. *)
  Record fevent := FEvent { fe_owner : dig; fe_ty : Z; fe_addr : Z; fe_value : dig }.
  Definition fevent_ok (e : fevent) : Prop := dig_ok (fe_owner e) /\ canon (fe_ty e) /\ canon (fe_addr e) /\ dig_ok (fe_value e).
  Definition fevent_hash (e : fevent) (h : dig) : Prop :=
    fevent_ok e /\ HR (delems (fe_owner e) ++ [fe_ty e; fe_addr e] ++ delems (fe_value e)) h.
  (** the event's hash as computed in the VM, over the bytes of its 64-bit words (the owner is not hashed) *)
  Definition fevent_vm (e : fevent) (h : dig) : Prop := WordsHash ([fe_ty e; fe_addr e] ++ delems (fe_value e)) h.

  (** event trees under the field hash and under the VM's byte hash *)
  Definition EventRoot : btree fevent -> dig -> Prop := TreeRoot fevent_hash pair_hash.
  Definition EventVmRoot : btree fevent -> dig -> Prop := TreeRoot fevent_vm vm_pair_hash.
  Definition EventsRoot : option (btree fevent) -> bool -> dig -> Prop := ORoot fevent_hash pair_hash.
  (** a list of digests hashed pairwise as a tree over bytes *)
  Definition IdsVmRoot : btree dig -> dig -> Prop := TreeRoot eq vm_pair_hash.
End Spec.

(** [Interleave a b m]: [m] contains the elements of [a] and of [b], each in its original order. *)
Inductive Interleave {A} : list A -> list A -> list A -> Prop :=
| IL_nil : Interleave [] [] []
| IL_l x a b m : Interleave a b m -> Interleave (x :: a) b (x :: m)
| IL_r x a b m : Interleave a b m -> Interleave a (x :: b) (x :: m).

(** [Shuffle ls m]: [m] interleaves all the lists of [ls]. *)
Inductive Shuffle {A} : list (list A) -> list A -> Prop :=
| Sh_nil : Shuffle [] []
| Sh_cons l ls m m' : Shuffle ls m -> Interleave l m m' -> Shuffle (l :: ls) m'.

(** ** Programs and transactions. *)
(** one program of a transaction: its id and the tree of its events *)
Record prun := PRun { pn_id : dig; pn_events : option (btree fevent) }.
Section Tx.
  Variable HR : list Z -> dig -> Prop.
  Variable prog_acc : vd -> prog_pi -> Prop.
  (** The program's events carry its id as owner, and some circuit accepted a proof for exactly this id, the VM hash of these
      events, this call list and this cast list. *)
  Definition program_ok (call cast : dig) (p : prun) : Prop :=
    Forall (fun e => fe_owner e = pn_id p) (oleaves (pn_events p)) /\
    exists vdata pr, prog_acc vdata pr /\ pr_id pr = pn_id p /\ pr_call pr = call /\ pr_cast pr = cast /\
      ORoot (fevent_vm HR) (vm_pair_hash HR) (pn_events p) (pr_ep pr) (pr_ev pr).
  Record transaction := Transaction { tr_progs : btree prun; tr_call : dig; tr_cast : dig; tr_events : option (btree fevent) }.
  (** All programs agree on the call list and the cast list; the cast list is the list of the programs' ids; the
      transaction's events are the programs' events, each program's in order. *)
  Definition transaction_ok (t : transaction) : Prop :=
    IdsVmRoot HR (tmap pn_id (tr_progs t)) (tr_cast t) /\
    Shuffle (map (fun p => oleaves (pn_events p)) (leaves (tr_progs t))) (oleaves (tr_events t)) /\
    Forall (program_ok (tr_call t) (tr_cast t)) (leaves (tr_progs t)).
End Tx.

(** ** What a list of events at one address says about the object there. *)
Definition ev_is (t : Z) (e : fevent) : bool := fe_ty e =? t.
Definition count_ty (t : Z) (es : list fevent) : nat := length (List.filter (ev_is t) es).
(** signed credit change of one event *)
Definition ev_credit (e : fevent) : Z :=
  if ev_is TCredit e then (if d3 (fe_value e) =? 1 then - d0 (fe_value e) else d0 (fe_value e)) else 0.
Definition credit_sum (es : list fevent) : Z := fold_right (fun e s => ev_credit e + s) 0 es.

(** What one event requires of the accumulated old owner, new owner, old data and new data. *)
Definition event_agrees (e : fevent) (oo no od nd : dig) : Prop :=
  (fe_ty e = TWrite -> oo = fe_owner e /\ nd = fe_value e) /\
  (fe_ty e = TEnsure -> nd = fe_value e) /\
  (fe_ty e = TRead -> od = fe_value e) /\
  (fe_ty e = TGive -> oo = fe_owner e /\ no = fe_value e) /\
  (fe_ty e = TTake -> oo = fe_value e /\ no = fe_owner e) /\
  (fe_ty e = TCredit -> 0 <= d0 (fe_value e) < 2 ^ 40 /\ (d3 (fe_value e) = 0 \/ d3 (fe_value e) = 1)).
(** [x] is the accumulated description of the events [es]. *)
Definition delta_of (es : list fevent) (x : ac_pi) : Prop :=
  (forall e, In e es -> fe_addr e = ac_addr x) /\
  0 <= ac_flags x < 32 /\
  Z.testbit (ac_flags x) FWrite = existsb (ev_is TWrite) es /\
  Z.testbit (ac_flags x) FEnsure = existsb (ev_is TEnsure) es /\
  Z.testbit (ac_flags x) FRead = existsb (ev_is TRead) es /\
  Z.testbit (ac_flags x) FGive = existsb (ev_is TGive) es /\
  Z.testbit (ac_flags x) FTake = existsb (ev_is TTake) es /\
  (count_ty TWrite es <= 1)%nat /\ (count_ty TGive es <= 1)%nat /\ (count_ty TTake es <= 1)%nat /\
  (forall e, In e es -> event_agrees e (ac_oo x) (ac_no x) (ac_od x) (ac_nd x)) /\
  ac_cd x = credit_sum es mod P.

(** ** One object's change in a block: its address, the events about it and the object before and after. *)
Record objchange := OChange { oc_addr : Z; oc_events : btree fevent; oc_old : object; oc_new : object }.
Definition has (t : Z) (es : list fevent) : Prop := exists e, In e es /\ fe_ty e = t.
Definition transition_ok (height : Z) (c : objchange) : Prop :=
  let es := leaves (oc_events c) in let old := oc_old c in let new := oc_new c in
  (forall e, In e es -> fe_addr e = oc_addr c) /\
  (count_ty TWrite es <= 1)%nat /\ (count_ty TGive es <= 1)%nat /\ (count_ty TTake es <= 1)%nat /\
  (* data changes only by a write, and a write sets it; reads saw the old data; with a write, ensures hold *)
  (o_data old <> o_data new -> has TWrite es) /\
  (forall e, In e es -> fe_ty e = TWrite -> o_data new = fe_value e) /\
  (forall e, In e es -> fe_ty e = TRead -> o_data old = fe_value e) /\
  (forall e, In e es -> fe_ty e = TEnsure -> has TWrite es -> o_data new = fe_value e) /\
  (* ownership changes only by a give and a take, from or to nobody *)
  (has TGive es <-> has TTake es) /\
  (~ has TGive es -> o_owner old = o_owner new /\ o_owner old <> dzero) /\
  (has TGive es -> o_owner old <> o_owner new /\ (o_owner old = dzero \/ o_owner new = dzero)) /\
  (forall e, In e es -> fe_ty e = TGive -> fe_owner e = o_owner old /\ fe_value e = o_owner new) /\
  (forall e, In e es -> fe_ty e = TTake -> fe_value e = o_owner old /\ fe_owner e = o_owner new) /\
  (forall e, In e es -> fe_ty e = TWrite -> has TGive es -> fe_owner e = o_owner old) /\
  (* credits change by the sum of the signed amounts, in the field *)
  (o_credits new - o_credits old) mod P = credit_sum es mod P /\
  (* the time stamp *)
  (o_owner new = dzero -> o_updated new = 0) /\
  (o_owner new <> dzero -> has TGive es \/ has TWrite es \/ o_credits old <> o_credits new -> o_updated new = height) /\
  (o_owner new <> dzero -> ~ has TGive es -> ~ has TWrite es -> o_credits old = o_credits new -> o_updated new = o_updated old).

(** What a change should satisfy: every event agrees with the object before and after (so only the owner writes, reads
    see the old data, ensures hold), changes are explained by events, and credits are not negative. *)
Definition legal_transition (height : Z) (c : objchange) : Prop :=
  let es := leaves (oc_events c) in let old := oc_old c in let new := oc_new c in
  object_ok old /\ object_ok new /\ canon (oc_addr c) /\
  (forall e, In e es -> fe_addr e = oc_addr c) /\
  (count_ty TWrite es <= 1)%nat /\ (count_ty TGive es <= 1)%nat /\ (count_ty TTake es <= 1)%nat /\
  (forall e, In e es -> event_agrees e (o_owner old) (o_owner new) (o_data old) (o_data new)) /\
  (o_data old <> o_data new -> has TWrite es) /\
  (has TGive es <-> has TTake es) /\
  (~ has TGive es -> o_owner old = o_owner new /\ o_owner old <> dzero) /\
  (has TGive es -> o_owner old <> o_owner new /\ (o_owner old = dzero \/ o_owner new = dzero)) /\
  o_credits new = o_credits old + credit_sum es /\
  (o_owner new = dzero -> o_updated new = 0) /\
  (o_owner new <> dzero -> has TGive es \/ has TWrite es \/ o_credits old <> o_credits new -> o_updated new = height) /\
  (o_owner new <> dzero -> ~ has TGive es -> ~ has TWrite es -> o_credits old = o_credits new -> o_updated new = o_updated old).

(** ** A leaf of the state tree in a state update. *)
Record sleaf := SLeaf { sl_touched : bool; sl_addr : Z; sl_old : dig; sl_new : dig }.
Fixpoint perfect {A} (h : nat) (t : btree A) : Prop :=
  match h, t with O, BLeaf _ => True | S h, BNode l r => perfect h l /\ perfect h r | _, _ => False end.

Section Block.
  Variable HR : list Z -> dig -> Prop.
  Definition change_hash (c : objchange) (h : dig) : Prop :=
    exists ho hn, object_hash HR (oc_old c) ho /\ object_hash HR (oc_new c) hn /\ summarize HR (oc_addr c) ho hn h.
  Definition sleaf_hash (s : sleaf) (h : dig) : Prop := summarize HR (sl_addr s) (sl_old s) (sl_new s) h.
  (** [t] is the state tree of height [h] with its leaves before and after; [old], [new] are the two roots. *)
  Definition StateTree (h : nat) (t : btree sleaf) (old new : dig) : Prop :=
    perfect h t /\ TreeRoot eq (pair_hash HR) (tmap sl_old t) old /\ TreeRoot eq (pair_hash HR) (tmap sl_new t) new /\
    (forall s, In s (leaves t) -> sl_touched s = false -> sl_old s = sl_new s).

  (** A block changes the state only by object changes that its transactions' events justify. *)
  Variable prog_acc : vd -> prog_pi -> Prop.
  Definition BlockChange (height : Z) (h : nat) (old new : dig) : Prop :=
    exists (t : btree sleaf) (ms : list objchange) (txs : list transaction),
      StateTree h t old new /\
      (forall i s, nth_error (leaves t) i = Some s -> sl_touched s = true -> sl_addr s = Z.of_nat i mod P) /\
      Forall2 (fun s m => sl_addr s = oc_addr m /\ object_hash HR (oc_old m) (sl_old s) /\ object_hash HR (oc_new m) (sl_new s))
        (List.filter sl_touched (leaves t)) ms /\
      Forall (transition_ok height) ms /\
      Forall (transaction_ok HR prog_acc) txs /\
      Shuffle (map (fun t => oleaves (tr_events t)) txs) (concat (map (fun m => leaves (oc_events m)) ms)).

  (** [Chain base n s]: [n] blocks, the [k]-th stamped [k mod P], lead from the state [base] to [s]. *)
  Inductive Chain (h : nat) (base : dig) : nat -> dig -> Prop :=
  | Chain0 : Chain h base 0 base
  | ChainS n s s' : Chain h base n s -> BlockChange (Z.of_nat (S n) mod P) h s s' -> Chain h base (S n) s'.
End Block.

(** The code's hash: a total function. *)
Definition HRf (H : list Z -> dig) : list Z -> dig -> Prop := fun x h => h = H x.
