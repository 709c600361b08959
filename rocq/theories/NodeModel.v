(** Model of the block proposer's state tree (node/src/block_proposer/state.rs) and of addresses in it
    (node/src/block_proposer.rs).

    A panic (unwrap of a failed proof, unreachable!, assert) is [None]. A proof is represented by its public inputs; proving
    fails exactly when the witness that the code assigns violates a constraint. [H] is Poseidon2Hash::hash_no_pad on field
    elements. The circuits for all heights are assumed built: State::new (state.rs:545) asserts that. *)
From stdpp Require Import prelude.
From Verif Require Import Field RecModel.
Open Scope Z_scope.

(** block_proposer.rs:83-106 AddressPath::next, on (height, addr): remaining path and direction ([true] = right). *)
Definition path_next (p : nat * Z) : option (nat * Z) * bool :=
  let '(height, addr) := p in
  let dir := Z.testbit addr (Z.of_nat height) in
  let addr' := Z.land addr (2 ^ Z.of_nat height - 1) in
  (match height with O => None | S h => Some (h, addr') end, dir).

Inductive operation := OpUpsert (o : object) | OpRead | OpDelete.
(** state.rs:45-63 *)
Inductive leaf_kind :=
| KDeleteEmpty | KReadEmpty | KCreated (new : object) | KUnused (o : object) | KDeleted (o : object) | KRead (o : object)
| KUpdated (old new : object).
(** state.rs:26-43. [SEmpty] is an absent child. *)
Inductive stree :=
| SEmpty
| SBr (height : nat) (proof : su_pi) (left right : stree)
| SLf (proof : su_pi) (kind : leaf_kind).
(** state.rs:65-69 *)
Inductive fin_outcome := FPrune | FRecalc | FNoOp.
(** state.rs:71-81 *)
Definition fin_add (a b : fin_outcome) : fin_outcome :=
  match a, b with
  | FRecalc, _ | _, FRecalc => FRecalc
  | FNoOp, _ | _, FNoOp => FNoOp
  | FPrune, FPrune => FPrune
  end.
Global Instance object_eqd : EqDecision object. Proof. solve_decision. Defined.

Section StateNode.
  Variable H : list Z -> dig.

  (** recproofs lib.rs:217-226 Object::hash; the default object (state.rs:99) *)
  Definition obj_hash (o : object) : dig := H (delems (o_owner o) ++ [o_updated o; o_credits o] ++ delems (o_data o)).
  Definition default_object : object := Obj dzero 0 0 dzero.
  Definition empty_hash : dig := obj_hash default_object.

  (** recproofs state_update.rs:178-195 LeafCircuit::prove with verify_address.rs:88-107 set_witness: the presence bit is
      [address.is_some()], an absent address is -1. from_canonical_u64 asserts canonicity (debug assertion). *)
  Definition leaf_prove (old new : dig) (address : option Z) : option su_pi :=
    let ad := match address with Some a => a | None => P - 1 end in
    let sp := match address with Some _ => true | None => false end in
    if (ad <? P) && Bool.eqb sp (negb (fadd ad 1 =? 0)) && (dig_eqb old new || sp)
    then Some (SuPi sp (if sp then H ([ad] ++ delems old ++ delems new) else dzero) old new ad)
    else None.
  (** recproofs state_update.rs:343-360 BranchCircuit::prove: all values are computed from the children. Division by two is
      multiplication by the inverse of two. *)
  Definition fhalf (x : Z) : Z := (x * ((P + 1) / 2)) mod P.
  Definition hof (lp : bool) (l : dig) (rp : bool) (r : dig) : dig := if lp && rp then H (delems l ++ delems r) else dadd l r.
  Definition branch_prove (l r : su_pi) : option su_pi :=
    let lp := fhalf (su_addr l) in let rp := fhalf ((su_addr r - 1) mod P) in
    if negb (su_sp l && su_sp r) || (lp =? rp)
    then Some (SuPi (su_sp l || su_sp r) (hof (su_sp l) (su_sum l) (su_sp r) (su_sum r))
                 (H (delems (su_old l) ++ delems (su_old r))) (H (delems (su_new l) ++ delems (su_new r)))
                 (if su_sp l || su_sp r then (if su_sp l then lp else rp) else su_addr l))
    else None.

  (** state.rs:112-131: proofs of empty subtrees; level 0 is the leaf, level [S h] is empty_branch_proofs[h] *)
  Fixpoint empty_proof (n : nat) : option su_pi :=
    match n with
    | O => leaf_prove empty_hash empty_hash None
    | S n => match empty_proof n with Some p => branch_prove p p | None => None end
    end.

  (** state.rs:385-457 the leaf constructors *)
  Definition mk_leaf (old new : dig) (addr : Z) (k : leaf_kind) : option (su_pi * leaf_kind) :=
    match leaf_prove old new (Some addr) with Some p => Some (p, k) | None => None end.
  Definition read_empty_leaf (addr : Z) := mk_leaf empty_hash empty_hash addr KReadEmpty.
  Definition delete_empty_leaf (addr : Z) := mk_leaf empty_hash empty_hash addr KDeleteEmpty.
  Definition being_created (addr : Z) (o : object) := mk_leaf empty_hash (obj_hash o) addr (KCreated o).
  Definition being_deleted (addr : Z) (old_hash : dig) (o : object) := mk_leaf old_hash empty_hash addr (KDeleted o).
  Definition being_read (addr : Z) (old_hash : dig) (o : object) := mk_leaf old_hash old_hash addr (KRead o).
  Definition being_updated (addr : Z) (old_hash : dig) (o new : object) := mk_leaf old_hash (obj_hash new) addr (KUpdated o new).
  (** state.rs:459-465 create_leaf_helper *)
  Definition create_leaf (addr : Z) (op : operation) : option (su_pi * leaf_kind) :=
    match op with
    | OpDelete => delete_empty_leaf addr
    | OpRead => read_empty_leaf addr
    | OpUpsert o => being_created addr o
    end.

  (** state.rs:191-266 apply_operation_leaf: new proof and kind, and whether to recalculate *)
  Definition apply_leaf (p : su_pi) (k : leaf_kind) (addr : Z) (op : operation) : option (su_pi * leaf_kind * bool) :=
    let changed x := match x with Some (p', k') => Some (p', k', true) | None => None end in
    match op with
    | OpRead => match k with KUnused o => changed (being_read addr (su_old p) o) | _ => Some (p, k, false) end
    | OpDelete =>
      match k with
      | KDeleteEmpty | KReadEmpty | KDeleted _ => Some (p, k, false)
      | KUnused o | KRead o => changed (being_deleted addr (su_old p) o)
      | _ => None
      end
    | OpUpsert n =>
      match k with
      | KReadEmpty => changed (being_created addr n)
      | KUnused o | KRead o => changed (being_updated addr (su_old p) o n)
      | KCreated n' | KUpdated _ n' => if bool_decide (n = n') then Some (p, k, false) else None
      | _ => None
      end
    end.

  (** state.rs:268-302 recalc_branch_helper: the proof standing for a child. The circuit of a height verifies only proofs
      of the height below, so a child of the wrong kind is a panic (unreachable! or a failing proof). *)
  Definition child_proof (h : nat) (c : stree) : option su_pi :=
    match h, c with
    | O, SLf p _ => Some p
    | S _, SBr _ p _ _ => Some p
    | _, SEmpty => empty_proof h
    | _, _ => None
    end.
  Definition recalc (h : nat) (l r : stree) : option stree :=
    match child_proof h l, child_proof h r with
    | Some pl, Some pr => match branch_prove pl pr with Some p => Some (SBr h p l r) | None => None end
    | _, _ => None
    end.

  (** state.rs:304-377 create_branch_helper, by recursion on the path's height *)
  Fixpoint create_branch (height : nat) (addr0 : Z) (addr : Z) (op : operation) : option stree :=
    let dir := snd (path_next (height, addr0)) in
    let child := match height, fst (path_next (height, addr0)) with
                 | S h, Some (_, a) => create_branch h a addr op
                 | _, _ => match create_leaf addr op with Some (p, k) => Some (SLf p k) | None => None end
                 end in
    match child with
    | Some c =>
      match child_proof height c, empty_proof height with
      | Some p, Some e =>
        match (if dir then branch_prove e p else branch_prove p e) with
        | Some q => Some (if dir then SBr height q SEmpty c else SBr height q c SEmpty)
        | None => None
        end
      | _, _ => None
      end
    | None => None
    end.

  (** state.rs:148-189 apply_operation_helper *)
  Fixpoint apply_helper (branch : stree) (addr : Z) (path : option (nat * Z)) (dir : bool) (op : operation) : option (stree * bool) :=
    match branch with
    | SBr h p l r =>
      let child := if dir then r else l in
      let res :=
        match child with
        | SEmpty =>
          match path with
          | Some (ph, pa) => match create_branch ph pa addr op with Some c => Some (c, true) | None => None end
          | None => match create_leaf addr op with Some (q, k) => Some (SLf q k, true) | None => None end
          end
        | SBr _ _ _ _ =>
          match path with
          | Some pp => let '(path', dir') := path_next pp in apply_helper child addr path' dir' op
          | None => None
          end
        | SLf q k =>
          match path with
          | None => match apply_leaf q k addr op with Some (q', k', rc) => Some (SLf q' k', rc) | None => None end
          | Some _ => None
          end
        end in
      match res with
      | Some (c, rc) =>
        let l' := if dir then l else c in let r' := if dir then c else r in
        if rc then match recalc h l' r' with Some t => Some (t, true) | None => None end
        else Some (SBr h p l' r', false)
      | None => None
      end
    | _ => None
    end.
  (** state.rs:143-146, 558-560, block_proposer.rs:39-48 Address::next with its debug assertion *)
  Definition apply_operation (root : stree) (addr : Z) (op : operation) : option stree :=
    match root with
    | SBr h _ _ _ =>
      if (0 <=? addr) && (addr <? 2 ^ (Z.of_nat h + 1)) then
        let '(path, dir) := path_next (h, addr) in
        match apply_helper root addr path dir op with Some (t, _) => Some t | None => None end
      else None
    | _ => None
    end.

  (** state.rs:516-534 finalize_leaf *)
  Definition finalize_leaf (p : su_pi) (k : leaf_kind) : option (stree * fin_outcome) :=
    let again old o := match leaf_prove old old None with Some q => Some (SLf q (KUnused o), FRecalc) | None => None end in
    match k with
    | KUnused _ => Some (SLf p k, FNoOp)
    | KDeleteEmpty | KReadEmpty | KDeleted _ => Some (SEmpty, FPrune)
    | KCreated n | KUpdated _ n => again (su_new p) n
    | KRead o => again (su_old p) o
    end.
  (** state.rs:471-514 finalize_branch; a pruned child is dropped *)
  Fixpoint finalize_tree (t : stree) : option (stree * fin_outcome) :=
    match t with
    | SEmpty => Some (SEmpty, FPrune)
    | SLf p k => finalize_leaf p k
    | SBr h p l r =>
      match finalize_tree l, finalize_tree r with
      | Some (l', lo), Some (r', ro) =>
        let l'' := match lo with FPrune => SEmpty | _ => l' end in
        let r'' := match ro with FPrune => SEmpty | _ => r' end in
        match fin_add lo ro with
        | FRecalc => match recalc h l'' r'' with Some t' => Some (t', FRecalc) | None => None end
        | o => Some (SBr h p l'' r'', o)
        end
      | _, _ => None
      end
    end.
  (** state.rs:467-469, 562 *)
  Definition finalize (root : stree) : option stree :=
    match finalize_tree root with Some (t, _) => Some t | None => None end.

  (** state.rs:545-555 State::new *)
  Definition state_new (depth : nat) : option stree :=
    match empty_proof (S depth) with Some p => Some (SBr depth p SEmpty SEmpty) | None => None end.

  (** state.rs:564-601 get_state; the outer option is the panic *)
  Definition kind_state (k : leaf_kind) : option object * option object :=
    match k with
    | KDeleteEmpty | KReadEmpty => (None, None)
    | KCreated n => (None, Some n)
    | KUnused o | KRead o => (Some o, Some o)
    | KDeleted o => (Some o, None)
    | KUpdated o n => (Some o, Some n)
    end.
  Fixpoint get_helper (branch : stree) (path : option (nat * Z)) (dir : bool) : option (option object * option object) :=
    match branch with
    | SBr h p l r =>
      let child := if dir then r else l in
      match child with
      | SEmpty => Some (None, None)
      | SBr _ _ _ _ => match path with Some pp => let '(path', dir') := path_next pp in get_helper child path' dir' | None => None end
      | SLf _ k => match path with None => Some (kind_state k) | Some _ => None end
      end
    | _ => None
    end.
  Definition get_state (root : stree) (addr : Z) : option (option object * option object) :=
    match root with
    | SBr h _ _ _ => if (0 <=? addr) && (addr <? 2 ^ (Z.of_nat h + 1)) then let '(path, dir) := path_next (h, addr) in get_helper root path dir else None
    | _ => None
    end.
  (** the proof of the root: [state.root.proof], what Blocks::increment (block.rs:79-98) is given *)
  Definition root_proof (root : stree) : option su_pi := match root with SBr _ p _ _ => Some p | _ => None end.
End StateNode.
