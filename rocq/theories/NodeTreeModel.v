(** Model of the block proposer's trees: node/src/block_proposer.rs, transactions.rs (event trees, cast trees),
    matches.rs. A plonky2 proof is represented by its public inputs (NodeModel.v does the same). *)
From stdpp Require Import prelude.
From Verif Require Import Field RecModel RecSpec.
Open Scope Z_scope.

(** ** block_proposer.rs:330-371 reduce_tree. [make_ret] and [make_t] only box and unbox at every call; the stack's top is
    the head of the list; the capacity computed from the size hint is not modelled. *)
Section Reduce.
  Context {T : Type} (merge : T -> T -> T).
  (** 352-359 the inner [while let Some((pv, pc)) = stack.pop()] *)
  Fixpoint carry (stack : list (T * nat)) (v : T) (c : nat) : list (T * nat) :=
    match stack with
    | (pv, pc) :: s => if (pc =? c)%nat then carry s (merge pv v) (c + pc) else (v, c) :: stack
    | [] => [(v, c)]
    end.
  (** 344-361 the outer loop: the stack and [final_v] *)
  Fixpoint rt_loop (l : list T) (stack : list (T * nat)) : list (T * nat) * option T :=
    match l with
    | v0 :: v1 :: r => rt_loop r (carry stack (merge v0 v1) 2)
    | [v0] => (stack, Some v0)
    | [] => (stack, None)
    end.
  (** 369-371 *)
  Fixpoint unwind (stack : list (T * nat)) (v : T) : T :=
    match stack with [] => v | (pv, _) :: s => unwind s (merge pv v) end.
  Definition reduce_tree (l : list T) : option T :=
    match rt_loop l [] with
    | ([], None) => None
    | ((pv, _) :: s, None) => Some (unwind s pv)
    | ([], Some v) => Some v
    | ((pv, _) :: s, Some v) => Some (unwind s (merge pv v))
    end.
End Reduce.

(** ** block_proposer.rs:290-328 reduce_tree_by_address and its step *)
Section ByAddress.
  Context {A T : Type} `{EqDecision A} (addr_inc : A -> A) (merge : A -> T -> T -> T).
  (** itertools' chunk_by: maximal runs of equal keys *)
  Fixpoint chunks (l : list (A * T)) : list (A * list T) :=
    match l with
    | [] => []
    | (a, t) :: r =>
      match chunks r with
      | (b, ts) :: cs => if decide (a = b) then (a, t :: ts) :: cs else (a, [t]) :: (b, ts) :: cs
      | [] => [(a, [t])]
      end
    end.
  (** 306-328; [None] is the [unwrap] on an empty chunk *)
  Fixpoint reduce_chunks (l : list (A * list T)) : option (list (A * T)) :=
    match l with
    | [] => Some []
    | (a, ts) :: r => match reduce_tree (merge a) ts, reduce_chunks r with Some t, Some r' => Some ((addr_inc a, t) :: r') | _, _ => None end
    end.
  Definition by_step (l : list (A * T)) : option (list (A * T)) := reduce_chunks (chunks l).
  (** 290-303; the [while] loop runs on [fuel]. The outer [None] is a panic or the end of fuel, the inner one an empty list. *)
  Fixpoint by_address (fuel : nat) (l : list (A * T)) : option (option (A * T)) :=
    match l with
    | [] => Some None
    | [x] => Some (Some x)
    | _ => match fuel with O => None | S fuel' => match by_step l with Some l' => by_address fuel' l' | None => None end end
    end.
End ByAddress.

(** ** block_proposer.rs:108-114 BranchAddress *)
Record baddr := BA { ba_h : Z; ba_a : Z }.
#[global] Instance baddr_eq_dec : EqDecision baddr. Proof. solve_decision. Defined.
(** 139-145 *)
Definition base (a : Z) : baddr := BA 0 a.
(** 184-190 parent: a shift by 64 or more panics *)
Definition parent (x : baddr) (n : Z) : option baddr := if n <? 64 then Some (BA (ba_h x + n) (Z.shiftr (ba_a x) n)) else None.
(** u64::BITS - x.leading_zeros() *)
Definition bitlen (x : Z) : Z := if x =? 0 then 0 else Z.log2 x + 1.
(** 147-162 common_ancestor with its debug assertion *)
Definition common_ancestor (x y : baddr) : option baddr :=
  match parent x (Z.max 0 (ba_h y - ba_h x)), parent y (Z.max 0 (ba_h x - ba_h y)) with
  | Some x, Some y =>
    let d := bitlen (Z.lxor (ba_a x) (ba_a y)) in
    match parent x d, parent y d with
    | Some x', Some y' => if bool_decide (x' = y') then Some x' else None
    | _, _ => None
    end
  | _, _ => None
  end.
(** 164-179 child: [inr] is the leaf's address; [<<= 1] drops the top bit *)
Definition child (x : baddr) (right : bool) : baddr + Z :=
  let a := Z.lor (Z.shiftl (ba_a x) 1 mod 2 ^ 64) (if right then 1 else 0) in
  if ba_h x =? 0 then inr a else inl (BA (ba_h x - 1) a).
(** 246-267 *)
Inductive bcmp := Equal | LeftChild | RightChild | LeftSibling | RightSibling | LeftParent | RightParent | LeftCousin | RightCousin.
(** 192-243 compare; [addr.next(delta - 1)] looks at the top bit of the [delta] masked ones *)
Definition compare (x y : baddr) : option bcmp :=
  if ba_h x =? ba_h y then
    Some match Z.shiftr (ba_a x) 1 ?= Z.shiftr (ba_a y) 1 with
         | Lt => RightCousin
         | Gt => LeftCousin
         | Eq => match Z.land (ba_a x) 1 ?= Z.land (ba_a y) 1 with Lt => RightSibling | Eq => Equal | Gt => LeftSibling end
         end
  else
    let xpar := ba_h y <? ba_h x in
    let p := if xpar then x else y in let c := if xpar then y else x in
    let delta := ba_h p - ba_h c in
    if 64 <=? delta then None else
    match Z.shiftr (ba_a c) delta ?= ba_a p, xpar with
    | Lt, false | Gt, true => Some RightCousin
    | Gt, false | Lt, true => Some LeftCousin
    | Eq, _ =>
      let a := Z.land (ba_a c) (Z.shiftl 1 delta - 1) in
      Some match Z.testbit a (delta - 1), xpar with
           | false, true => LeftChild | true, true => RightChild | false, false => LeftParent | true, false => RightParent
           end
    end.

(** ** transactions.rs:442-475 EventNode; the event is left abstract *)
Section Events.
  Context {E : Type}.
  Inductive enode := EvL (hash : dig) (addr : Z) (e : E) | EvB (addr : baddr) (hash : dig) (l r : enode).
  Definition en_hash (t : enode) : dig := match t with EvL h _ _ => h | EvB _ h _ _ => h end.
  Definition en_addr (t : enode) : baddr := match t with EvL _ a _ => base a | EvB a _ _ _ => a end.

  Variable H : list Z -> dig.
  Definition f2to1 (l r : dig) : dig := H (delems l ++ delems r).
  Definition add1 (x : baddr) : baddr := BA (ba_h x + 1) (Z.shiftr (ba_a x) 1).
  (** transactions.rs:582-603 the event tree of one program: (hash, address, event) in the order given *)
  Definition event_tree (fuel : nat) (l : list (dig * Z * E)) : option (option enode) :=
    match by_address add1 (fun a l r => EvB a (f2to1 (en_hash l) (en_hash r)) l r) fuel (map (fun '(h, a, e) => (base a, EvL h a e)) l) with
    | Some (Some x) => Some (Some (snd x)) | Some None => Some None | None => None
    end.

  (** recproofs circuits/merge.rs:89-119,166-176 prove: what the provers compute. The branch prover sets nothing but the
      two child proofs, so the values are the ones the circuit forces. *)
  Definition hofw (lp : bool) (l : dig) (rp : bool) (r : dig) : dig := if lp && rp then f2to1 l r else dadd l r.
  Definition odig (o : option dig) : dig := match o with Some d => d | None => dzero end.
  Definition mg_leaf_prove (a b : option dig) : mg_pi :=
    let ap := match a with Some _ => true | None => false end in let bp := match b with Some _ => true | None => false end in
    MgPi ap (odig a) bp (odig b) (ap || bp) (hofw ap (odig a) bp (odig b)).
  Definition mg_branch_prove (l r : mg_pi) : mg_pi :=
    MgPi (mg_ap l || mg_ap r) (hofw (mg_ap l) (mg_a l) (mg_ap r) (mg_a r)) (mg_bp l || mg_bp r) (hofw (mg_bp l) (mg_b l) (mg_bp r) (mg_b r))
         (mg_mp l || mg_mp r) (hofw (mg_mp l) (mg_m l) (mg_mp r) (mg_m r)).

  (** transactions.rs:189-215 simple_merge with its debug assertion *)
  Definition simple_merge (l r : enode) : option (mg_pi * enode) :=
    match common_ancestor (en_addr l) (en_addr r) with
    | Some a => let p := mg_leaf_prove (Some (en_hash l)) (Some (en_hash r)) in
                if bool_decide (mg_m p = f2to1 (en_hash l) (en_hash r)) then Some (p, EvB a (mg_m p) l r) else None
    | None => None
    end.
  (** transactions.rs:217-249 simple_merge_reverse *)
  Definition simple_merge_reverse (l r : enode) : option (mg_pi * enode) :=
    match common_ancestor (en_addr l) (en_addr r) with
    | Some a => let p := mg_branch_prove (mg_leaf_prove None (Some (en_hash r))) (mg_leaf_prove (Some (en_hash l)) None) in
                if bool_decide (mg_m p = f2to1 (en_hash r) (en_hash l)) then Some (p, EvB a (mg_m p) r l) else None
    | None => None
    end.
  (** transactions.rs:290-429 merge_events, by recursion on [fuel] (the size of both trees suffices); the result is the merge
      proof's public inputs and the merged tree, [None] a panic *)
  Definition isleaf (t : enode) : bool := match t with EvL _ _ _ => true | _ => false end.
  Fixpoint merge_events (fuel : nat) (left right : enode) : option (mg_pi * enode) :=
    match fuel with
    | O => None
    | S fuel =>
      match compare (en_addr left) (en_addr right) with
      | None => None
      | Some c =>
        match left, right, c with
        | EvL _ _ _, EvL _ _ _, (LeftParent | RightParent | LeftChild | RightChild) => None
        | EvL _ _ _, EvB _ _ _ _, (Equal | LeftSibling | RightSibling | LeftChild | RightChild) => None
        | EvB _ _ _ _, EvL _ _ _, (Equal | LeftSibling | RightSibling | LeftParent | RightParent) => None
        | EvL _ _ _, EvL _ _ _, Equal => simple_merge left right
        | _, _, (RightSibling | RightCousin) => simple_merge left right
        | _, _, (LeftCousin | LeftSibling) => simple_merge_reverse left right
        | _, EvB a _ rl rr, LeftParent =>
          match merge_events fuel left rl with
          | Some (lp, le) => let p := mg_branch_prove lp (mg_leaf_prove None (Some (en_hash rr))) in Some (p, EvB a (mg_m p) le rr)
          | None => None
          end
        | _, EvB a _ rl rr, RightParent =>
          match merge_events fuel left rr with
          | Some (rp, re) => let p := mg_branch_prove (mg_leaf_prove None (Some (en_hash rl))) rp in Some (p, EvB a (mg_m p) rl re)
          | None => None
          end
        | EvB a _ ll lr, _, LeftChild =>
          match merge_events fuel ll right with
          | Some (lp, le) => let p := mg_branch_prove lp (mg_leaf_prove (Some (en_hash lr)) None) in Some (p, EvB a (mg_m p) le lr)
          | None => None
          end
        | EvB a _ ll lr, _, RightChild =>
          match merge_events fuel lr right with
          | Some (rp, re) => let p := mg_branch_prove (mg_leaf_prove (Some (en_hash ll)) None) rp in Some (p, EvB a (mg_m p) ll re)
          | None => None
          end
        | EvB a _ ll lr, EvB _ _ rl rr, Equal =>
          match merge_events fuel ll rl, merge_events fuel lr rr with
          | Some (lp, le), Some (rp, re) => let p := mg_branch_prove lp rp in Some (p, EvB a (mg_m p) le re)
          | _, _ => None
          end
        end
      end
    end.
  (** transactions.rs:267-288 merge_maybe_events and 251-265 merge_events_branch; the empty merge proofs (87-94) state nothing *)
  Fixpoint esize (t : enode) : nat := match t with EvL _ _ _ => 1 | EvB _ _ l r => S (esize l + esize r) end.
  Definition empty_merge : mg_pi := mg_branch_prove (mg_leaf_prove None None) (mg_leaf_prove None None).
  Definition merge_branch (left right : option enode) : option (mg_pi * option enode) :=
    match left, right with
    | None, None => Some (empty_merge, None)
    | Some l, Some r =>
      match merge_events (esize l + esize r) l r with
      | Some (p, e) => Some (match compare (en_addr l) (en_addr r) with
                             | Some (RightSibling | RightCousin) => mg_branch_prove p (mg_leaf_prove None None)
                             | Some Equal => if isleaf l then mg_branch_prove p (mg_leaf_prove None None) else p
                             | _ => p end, Some e)
      | None => None
      end
    | Some l, None => Some (mg_branch_prove (mg_leaf_prove (Some (en_hash l)) None) (mg_leaf_prove None None), Some l)
    | None, Some r => Some (mg_branch_prove (mg_leaf_prove None (Some (en_hash r))) (mg_leaf_prove None None), Some r)
    end.
End Events.
Arguments enode : clear implicits.

(** ** transactions.rs:477-520 OngoingTxNode; a processed node carries whatever was computed for it ([X]: events and proof) *)
Section Cast.
  Context {X : Type}.
  Inductive onode := OProc (x : X) | OBr (l r : onode) | OLf.
  (** merging two processed children (154-165): may fail with an error *)
  Variable join : X -> X -> option X.
  Inductive insres := IOk (t : onode) | IErr | IPanic.
  (** block_proposer.rs:83-106 AddressPath::next on (height, addr): the rest of the path and the direction *)
  Definition path_step (p : nat * Z) : option (nat * Z) * bool :=
    let '(h, a) := p in
    (match h with O => None | S h' => Some (h', Z.land a (Z.shiftl 1 (Z.of_nat h) - 1)) end, Z.testbit a (Z.of_nat h)).
  (** transactions.rs:121-187 insert_program and its helper *)
  Fixpoint insert (node : onode) (path : option (nat * Z)) (x : option X) : insres :=
    match node, path with
    | OBr l r, Some p =>
      let '(p', dir) := path_step p in
      match insert (if dir then r else l) p' x with
      | IOk c =>
        let l' := if dir then l else c in let r' := if dir then c else r in
        match l', r' with
        | OProc a, OProc b => match join a b with Some v => IOk (OProc v) | None => IErr end
        | _, _ => IOk (OBr l' r')
        end
      | e => e
      end
    | OLf, None => match x with Some v => IOk (OProc v) | None => IErr end
    | OLf, Some (_, a) => if a =? 0 then (match x with Some v => IOk (OProc v) | None => IErr end) else IPanic
    | OProc _, _ => IErr
    | OBr _ _, None => IPanic
    end.
  (** block_proposer.rs:74-79 AddressPath::path; transactions.rs:690 [bits] *)
  Definition cast_path (n : nat) (i : nat) : option (nat * Z) :=
    match Z.to_nat (bitlen (Z.of_nat n)) with O => None | S h => Some (h, Z.of_nat i) end.
  (** transactions.rs:560-566, 646-703: ingest program [i] of a cast of [n]; [None] before the first program. The key
      (cast root, call tape) is the same for all. *)
  Definition ingest (n : nat) (st : option onode) (i : nat) (x : option X) : insres :=
    if (i <? n)%nat then
      match st with
      | None =>
        match x with
        | Some v =>
          match reduce_tree OBr (map (fun j => if (j =? i)%nat then OProc v else OLf) (seq 0 n)) with Some t => IOk t | None => IPanic end
        | None => IErr
        end
      | Some t => insert t (cast_path n i) x
      end
    else IErr.
End Cast.
Arguments onode : clear implicits.
Arguments insres : clear implicits.
