(** Specification of the block proposer's state: a map from addresses to objects, with what the current block did so far
    to each address. *)
From stdpp Require Import prelude.
From Verif Require Import Field RecModel RecSpec NodeModel.
Open Scope Z_scope.

(** What the current block did at an address. *)
Inductive status := Untouched | Seen | Removed | Put (o : object).
(** The object at an address when the block began, and what the block did. *)
Record cell := Cell { c_old : option object; c_st : status }.
Definition c_new (c : cell) : option object :=
  match c_st c with Untouched | Seen => c_old c | Removed => None | Put o => Some o end.
Definition touched (c : cell) : bool := match c_st c with Untouched => false | _ => true end.

(** One operation; [None] is a conflict (an object deleted and put, or put with two different contents). Deleting a
    missing object that was read before leaves it readable and creatable. *)
Definition cell_step (c : cell) (op : operation) : option cell :=
  match op, c_st c with
  | OpRead, Untouched => Some (Cell (c_old c) Seen)
  | OpRead, _ => Some c
  | OpDelete, Untouched => Some (Cell (c_old c) Removed)
  | OpDelete, Seen => Some (match c_old c with Some _ => Cell (c_old c) Removed | None => c end)
  | OpDelete, Removed => Some c
  | OpDelete, Put _ => None
  | OpUpsert o, (Untouched | Seen) => Some (Cell (c_old c) (Put o))
  | OpUpsert o, Put o' => if bool_decide (o = o') then Some c else None
  | OpUpsert _, Removed => None
  end.
(** The next block begins. *)
Definition cell_commit (c : cell) : cell := Cell (c_new c) Untouched.

Definition cells := Z -> cell.
Definition upd (c : cells) (a : Z) (x : cell) : cells := fun b => if b =? a then x else c b.
Definition no_cells : cells := fun _ => Cell None Untouched.

(** Histories: operations at addresses below 2^(depth+1), and ends of blocks. *)
Inductive action := AOp (addr : Z) (op : operation) | ACommit.
Inductive History (depth : nat) : list action -> cells -> Prop :=
| Hist0 : History depth [] no_cells
| HistOp l c a op x : History depth l c -> 0 <= a < 2 ^ Z.of_nat (S depth) -> cell_step (c a) op = Some x ->
    History depth (l ++ [AOp a op]) (upd c a x)
| HistCommit l c : History depth l c -> History depth (l ++ [ACommit]) (fun a => cell_commit (c a)).

(** all operations at addresses below P - 1 *)
Fixpoint low (l : list action) : Prop := match l with [] => True | AOp a _ :: l => a < P - 1 /\ low l | ACommit :: l => low l end.
(** no block of the history ended by a commit leaves empty an address it touched *)
Definition kept (depth : nat) (l : list action) : Prop :=
    forall l1 l2 c a, l = l1 ++ ACommit :: l2 -> History depth l1 c -> touched (c a) = true -> c_new (c a) <> None.

Section Run.
  Variable H : list Z -> dig.
  (** running a history on the proposer's state *)
  Definition run_action (t : stree) (a : action) : option stree :=
    match a with AOp addr op => apply_operation H t addr op | ACommit => finalize H t end.
  Fixpoint run_actions (t : stree) (l : list action) : option stree :=
    match l with [] => Some t | a :: l => match run_action t a with Some t' => run_actions t' l | None => None end end.
  Definition run_state (depth : nat) (l : list action) : option stree :=
    match state_new H depth with Some t => run_actions t l | None => None end.

  (** hash of an object or of its absence *)
  Definition ohash (o : option object) : dig := obj_hash H (match o with Some o => o | None => default_object end).
  Definition cell_leaf (c : cells) (a : Z) : sleaf := SLeaf (touched (c a)) a (ohash (c_old (c a))) (ohash (c_new (c a))).
  Definition addresses (n : nat) : list Z := map Z.of_nat (seq 0 (2 ^ n)).
  (** [p] states exactly what the block did: the old root, the new root, and the touched leaves in order. *)
  Definition states_block (n : nat) (c : cells) (p : su_pi) : Prop :=
    exists t ts, leaves t = map (cell_leaf c) (addresses n) /\
      StateTree (HRf H) n t (su_old p) (su_new p) /\
      ORoot (sleaf_hash (HRf H)) (pair_hash (HRf H)) ts (su_sp p) (su_sum p) /\ oleaves ts = List.filter sl_touched (map (cell_leaf c) (addresses n)).
End Run.
