(** What the block proposer's trees are supposed to be, independently of how they are built. *)
From stdpp Require Import prelude.
From Verif Require Import Field RecModel NodeTreeModel.
Open Scope Z_scope.

(** ** Binary trees and their roots *)
Inductive btree (A : Type) := Lf (a : A) | Nd (l r : btree A).
Arguments Lf {A}. Arguments Nd {A}.
Fixpoint leaves {A} (t : btree A) : list A := match t with Lf a => [a] | Nd l r => leaves l ++ leaves r end.
(** the root of [t] for a two-to-one function and a function giving each leaf's hash *)
Fixpoint root {A D} (two : D -> D -> D) (f : A -> D) (t : btree A) : D :=
  match t with Lf a => f a | Nd l r => two (root two f l) (root two f r) end.

(** ** The balanced combination of a list: neighbours are paired in rounds, an odd last one is kept *)
Section Balanced.
  Context {T : Type} (merge : T -> T -> T).
  Fixpoint round (l : list T) : list T := match l with a :: b :: r => merge a b :: round r | _ => l end.
  Inductive Rounds : list T -> T -> Prop :=
  | ROne x : Rounds [x] x
  | RMore a b l x : Rounds (round (a :: b :: l)) x -> Rounds (a :: b :: l) x.
End Balanced.

(** ** The tree over leaves with addresses: it splits on the highest bit in which addresses differ, and combines the leaves at
    one address in rounds *)
Section Trie.
  Context {A : Type} (addr : A -> Z).
  Inductive Trie : list A -> btree A -> Prop :=
  | TBucket l a t : Forall (fun x => addr x = a) l -> Rounds Nd (map Lf l) t -> Trie l t
  | TSplit l1 l2 b p t1 t2 : 0 <= b ->
      Forall (fun x => addr x / 2 ^ b = 2 * p) l1 -> Forall (fun x => addr x / 2 ^ b = 2 * p + 1) l2 ->
      Trie l1 t1 -> Trie l2 t2 -> Trie (l1 ++ l2) (Nd t1 t2).
  Definition by_addr (l : list A) : Prop :=
    forall i j x y, (i < j)%nat -> l !! i = Some x -> l !! j = Some y -> addr x <= addr y.
  Definition addr_range (l : list A) : Prop := Forall (fun x => 0 <= addr x < 2 ^ 64) l.
End Trie.

(** The tree inside an event node. *)
Section EN.
  Context {E : Type} (H : list Z -> dig).
  Fixpoint tree_of (t : enode E) : btree (dig * Z * E) :=
    match t with EvL h a e => Lf (h, a, e) | EvB _ _ l r => Nd (tree_of l) (tree_of r) end.
  Definition ev_ad (x : dig * Z * E) : Z := snd (fst x).
  Definition ev_hs (x : dig * Z * E) : dig := fst (fst x).
End EN.

(** ** Partial addresses stand for the ranges of leaf addresses below them *)
Definition lo (x : baddr) : Z := ba_a x * 2 ^ ba_h x.
Definition hi (x : baddr) : Z := (ba_a x + 1) * 2 ^ ba_h x.
Definition mid (x : baddr) : Z := lo x + 2 ^ (ba_h x - 1).
Definition ba_ok (x : baddr) : Prop := 0 <= ba_h x /\ 0 <= ba_a x < 2 ^ 64.
(** what the result of a comparison of [x] with [y] says *)
Definition relates (x y : baddr) (c : bcmp) : Prop :=
  match c with
  | Equal => x = y
  | RightSibling => ba_h x = ba_h y /\ ba_a y = ba_a x + 1 /\ Z.even (ba_a x) = true
  | LeftSibling => ba_h x = ba_h y /\ ba_a x = ba_a y + 1 /\ Z.even (ba_a y) = true
  | LeftChild => ba_h y < ba_h x /\ lo x <= lo y /\ hi y <= mid x
  | RightChild => ba_h y < ba_h x /\ mid x <= lo y /\ hi y <= hi x
  | LeftParent => ba_h x < ba_h y /\ lo y <= lo x /\ hi x <= mid y
  | RightParent => ba_h x < ba_h y /\ mid y <= lo x /\ hi x <= hi y
  | RightCousin => hi x <= lo y /\ ~ (ba_h x = ba_h y /\ ba_a y = ba_a x + 1 /\ Z.even (ba_a x) = true)
  | LeftCousin => hi y <= lo x /\ ~ (ba_h x = ba_h y /\ ba_a x = ba_a y + 1 /\ Z.even (ba_a y) = true)
  end.
(** [z] is [x] or above it *)
Definition above (z x : baddr) : Prop := ba_h x <= ba_h z /\ ba_a x / 2 ^ (ba_h z - ba_h x) = ba_a z.

(** ** Casts of [m] programs whose tree the [b] lowest bits of an index lead through: every right subtree is more than half full *)
Fixpoint fits (m : nat) (b : nat) : bool :=
  (m =? 1)%nat || match b with O => false | S b' => (2 ^ b' <? m)%nat && (m <=? 2 ^ b)%nat && fits (m - 2 ^ b') b' end.
(** the number of binary digits *)
Definition digits (n : nat) : nat := match n with O => 0 | _ => S (Nat.log2 n) end.
Definition good_cast (n : nat) : bool := fits n (digits n).

(** ** The event tree over a list of leaves: as [Trie], every branch carrying the partial address it stands for and the hash of
    its children *)
Section ETree.
  Context {E : Type} (H : list Z -> dig).
  Definition ev_leaf (x : dig * Z * E) : enode E := let '(h, a, e) := x in EvL h a e.
  Definition ev_node (a : baddr) (l r : enode E) : enode E := EvB a (f2to1 H (en_hash l) (en_hash r)) l r.
  Inductive ETree : list (dig * Z * E) -> enode E -> Prop :=
  | EBucket l a t : 0 <= a < 2 ^ 64 -> Forall (fun x => ev_ad x = a) l -> Rounds (ev_node (base a)) (map ev_leaf l) t -> ETree l t
  | ESplit l1 l2 b p t1 t2 : 0 <= b ->
      Forall (fun x => ev_ad x / 2 ^ b = 2 * p) l1 -> Forall (fun x => ev_ad x / 2 ^ b = 2 * p + 1) l2 ->
      ETree l1 t1 -> ETree l2 t2 -> ETree (l1 ++ l2) (ev_node (BA (b + 1) p) t1 t2).
End ETree.

(** ** Merging two lists sorted by address; the left one first at equal addresses *)
Section SMerge.
  Context {A : Type} (addr : A -> Z).
  Fixpoint smerge (l1 : list A) : list A -> list A :=
    fix go l2 :=
      match l1, l2 with
      | [], _ => l2
      | _, [] => l1
      | x :: r1, y :: r2 => if addr x <=? addr y then x :: smerge r1 l2 else y :: go r2
      end.
End SMerge.
(** What the merge of two event trees has to state: both roots and the merged one. *)
Definition merge_states (p : mg_pi) (a b m : dig) : Prop := p = MgPi true a true b true m.
Definition distinct_addrs {E} (l : list (dig * Z * E)) : Prop := List.NoDup (map ev_ad l).
Definition ev_ok {E} (l : list (dig * Z * E)) : Prop := Forall (fun x => 0 <= ev_ad x < 2 ^ 63 /\ dig_ok (ev_hs x)) l.

(** What two optional event trees state when merged: presence and hash of both and of the result. *)
Definition tree_digest {E} (t : option (enode E)) : dig := match t with Some t => en_hash t | None => dzero end.
Definition present {E} (t : option (enode E)) : bool := match t with Some _ => true | None => false end.
Definition merge_states_opt {E} (p : mg_pi) (a b m : option (enode E)) : Prop :=
  p = MgPi (present a) (tree_digest a) (present b) (tree_digest b) (present m) (tree_digest m).
(** Merging the event trees of programs two by two, in any order and grouping. *)
Inductive Merged {E} (H : list Z -> dig) : list (list (dig * Z * E)) -> enode E -> Prop :=
| MOne l t : event_tree H 65 l = Some (Some t) -> Merged H [l] t
| MTwo ps1 ps2 t1 t2 p t : Merged H ps1 t1 -> Merged H ps2 t2 -> merge_events H (esize t1 + esize t2) t1 t2 = Some (p, t) -> Merged H (ps1 ++ ps2) t.
