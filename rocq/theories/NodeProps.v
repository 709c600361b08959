(** Properties of the block proposer's state (C62, C63). The modelled history is the list of operations and ends of blocks
    since the state was created empty; [History depth l c] says that no operation in it conflicts with the ones before it
    and that [c] is then the state (NodeSpec.v). *)
From stdpp Require Import prelude.
From Verif Require Import Field RecModel RecSpec RecProofs RecTrees RecState RecComplete RecProps NodeModel NodeSpec NodeState NodeStale.
Open Scope Z_scope.

(** An object for examples. *)
Definition ob (n : Z) : object := Obj (dg n) 1 2 (dg 3).
Definition hist_ex : list action := [AOp 5 (OpUpsert (ob 7)); AOp 6 OpRead; ACommit; AOp 5 (OpUpsert (ob 8)); AOp 5 OpRead; AOp 1 OpDelete].
Definition cells_ex : cells := upd (upd (upd (commit (upd (upd no_cells 5 (Cell None (Put (ob 7)))) 6 (Cell None Seen))) 5 (Cell (Some (ob 7)) (Put (ob 8)))) 5 (Cell (Some (ob 7)) (Put (ob 8)))) 1 (Cell None Removed).
Lemma hist_ex_ok : History 2 hist_ex cells_ex.
Proof.
  change hist_ex with (((((([] ++ [AOp 5 (OpUpsert (ob 7))]) ++ [AOp 6 OpRead]) ++ [ACommit]) ++ [AOp 5 (OpUpsert (ob 8))]) ++ [AOp 5 OpRead]) ++ [AOp 1 OpDelete]).
  unfold cells_ex, commit. repeat (first [apply HistOp; [|cbn; lia|reflexivity] | apply HistCommit | apply Hist0]).
Qed.

(** ** C62: the state is a map from addresses to objects, in blocks *)
(** After any conflict-free history at addresses below P - 1, [get_state] answers at every address with the object the
    block found there and the object it leaves there. *)
Theorem C62_state_map_partial : forall H depth l c, (forall x, dig_ok (H x)) -> History depth l c -> low l ->
  exists t, run_state H depth l = Some t /\ forall a, 0 <= a < 2 ^ Z.of_nat (S depth) -> get_state t a = Some (c_old (c a), c_new (c a)).
Proof. intros H depth l c HO Hl Lo. exact (state_get H HO depth l c Hl Lo). Qed.
Example C62_map_example : History 2 hist_ex cells_ex /\ low hist_ex /\ c_old (cells_ex 5) = Some (ob 7) /\ c_new (cells_ex 5) = Some (ob 8).
Proof. split; [exact hist_ex_ok|]. split; [vm_compute; repeat split|]. split; reflexivity. Qed.
(** An operation that conflicts with an earlier one of the same block is refused (a panic), whatever came before. *)
Theorem C62_conflicts_refused : forall H depth l c a op, (forall x, dig_ok (H x)) -> History depth l c -> low l ->
  0 <= a < 2 ^ Z.of_nat (S depth) -> a < P - 1 -> cell_step (c a) op = None -> run_state H depth (l ++ [AOp a op]) = None.
Proof. intros H depth l c a op HO. exact (state_conflict H HO depth l c a op). Qed.
Example C62_conflict_example : cell_step (cells_ex 5) OpDelete = None /\ cell_step (cells_ex 5) (OpUpsert (ob 9)) = None /\ cell_step (cells_ex 1) (OpUpsert (ob 9)) = None.
Proof. repeat split. Qed.
(** An operation at one address does not change what is seen at another, and after the end of a block the object found is
    the object left. *)
Theorem C62_state_frame : forall H depth l c a op x t, (forall x, dig_ok (H x)) -> History depth l c -> low l ->
  0 <= a < 2 ^ Z.of_nat (S depth) -> a < P - 1 -> cell_step (c a) op = Some x -> run_state H depth l = Some t ->
  exists t', run_state H depth (l ++ [AOp a op]) = Some t' /\
    forall b, 0 <= b < 2 ^ Z.of_nat (S depth) -> b <> a -> get_state t' b = get_state t b.
Proof.
  intros H depth l c a op x t HO Hl Lo Ra La Es Et. destruct (state_get H HO depth l c Hl Lo) as (t0 & E0 & G0). rewrite Et in E0. injection E0 as <-.
  destruct (state_get H HO depth _ _ (HistOp depth l c a op x Hl Ra Es)) as (t' & E' & G'); [apply low_app; split; [exact Lo|split; [exact La|exact I]]|].
  exists t'. split; [exact E'|]. intros b Rb Nb. rewrite (G0 b Rb), (G' b Rb), upd_other by exact Nb. reflexivity.
Qed.
Theorem C62_state_commit : forall H depth l c t, (forall x, dig_ok (H x)) -> History depth l c -> low l -> run_state H depth l = Some t ->
  exists t', run_state H depth (l ++ [ACommit]) = Some t' /\
    forall b, 0 <= b < 2 ^ Z.of_nat (S depth) -> exists o n, get_state t b = Some (o, n) /\ get_state t' b = Some (n, n).
Proof.
  intros H depth l c t HO Hl Lo Et. destruct (state_get H HO depth l c Hl Lo) as (t0 & E0 & G0). rewrite Et in E0. injection E0 as <-.
  destruct (state_get H HO depth _ _ (HistCommit depth l c Hl)) as (t' & E' & G'); [apply low_app; split; [exact Lo|exact I]|].
  exists t'. split; [exact E'|]. intros b Rb. eexists. eexists. split; [exact (G0 b Rb)|]. rewrite (G' b Rb). reflexivity.
Qed.
Example C62_frame_example : cell_step (cells_ex 3) (OpUpsert (ob 9)) = Some (Cell None (Put (ob 9))) /\ 0 <= 3 < 2 ^ Z.of_nat 3.
Proof. split; [reflexivity|]. cbn. lia. Qed.
(** But at address P - 1 every operation panics: the leaf circuit uses that field element for "no address". *)
Lemma create_branch_none H h : forall q a op, create_leaf H a op = None -> create_branch H h q a op = None.
Proof.
  induction h as [|h IH]; intros q a op E; cbn [create_branch].
  - destruct (path_next (0%nat, q)) as [[[]|] d]; cbn [fst snd]; rewrite E; reflexivity.
  - rewrite path_next_eq. cbn [fst snd]. rewrite (IH _ _ _ E). reflexivity.
Qed.
Theorem C62_address_refuted : forall H op, run_state H 63 [AOp (P - 1) op] = None /\ 0 <= P - 1 < 2 ^ 64.
Proof.
  intros H op. split; [|vm_compute; split; [discriminate|reflexivity]].
  unfold run_state, state_new. destruct (empty_proof H 64) as [p|]; [|reflexivity]. cbn [run_actions run_action]. unfold apply_operation.
  change (2 ^ (Z.of_nat 63 + 1)) with (2 ^ 64). change ((0 <=? P - 1) && (P - 1 <? 2 ^ 64)) with true. cbv iota.
  rewrite (path_next_eq 63). cbn [apply_helper]. destruct (Z.testbit (P - 1) (Z.of_nat 63)); rewrite create_branch_none; try reflexivity; destruct op; reflexivity.
Qed.

(** ** C63: the state's proof states what the block did *)
(** In a history in which no block leaves an address it touched empty, the root proof is accepted by the state-update circuit
    and states the old state's root, the new state's root and exactly the addresses touched, in order. *)
Theorem C63_state_proof_partial : forall H depth l c, (forall x, dig_ok (H x)) -> History depth l c -> low l -> kept depth l ->
  exists t p, run_state H depth l = Some t /\ root_proof t = Some p /\
    su_acc (HRf H) (S depth) p /\ states_block H (S depth) c p /\ (su_sp p = true -> su_addr p = 0).
Proof. intros H depth l c HO Hl Lo Kp. exact (state_proof H HO depth l c Hl Lo Kp). Qed.
Example C63_example : History 1 (stale1 (ob 1) (ob 2)) (c_1 (ob 1) (ob 2)) /\ low (stale1 (ob 1) (ob 2)) /\ kept 1 (stale1 (ob 1) (ob 2)).
Proof. split; [apply hist_1|]. split; [apply low_1|apply kept_1]. Qed.
(** In general not: a block that deletes an object whose neighbour it left alone keeps its proof in the state, so the next
    block's proof neither starts from the state the deletion left nor names the addresses the next block touched. *)
Theorem C63_state_proof_refuted : forall H, (forall x, dig_ok (H x)) ->
  exists l c t1 t2 p1 p2, History 1 l c /\ History 1 (l ++ [ACommit; AOp 2 OpRead]) (upd (commit c) 2 (Cell None Seen)) /\ low (l ++ [ACommit; AOp 2 OpRead]) /\
    run_state H 1 l = Some t1 /\ root_proof t1 = Some p1 /\
    run_state H 1 (l ++ [ACommit; AOp 2 OpRead]) = Some t2 /\ root_proof t2 = Some p2 /\
    ((su_old p2 <> su_new p1 /\ ~ states_block H 2 (upd (commit c) 2 (Cell None Seen)) p2) \/ exists x y, x <> y /\ H x = H y).
Proof.
  intros H HO. destruct (stale_attack H HO (ob 1) (ob 2) ltac:(discriminate)) as (t1 & t2 & p1 & p2 & A & B & C & D & X).
  exists (stale1 (ob 1) (ob 2)), (c_1 (ob 1) (ob 2)), t1, t2, p1, p2. split; [apply hist_1|]. split; [apply hist_2|]. split; [apply low_2|]. auto.
Qed.

Print Assumptions C62_state_map_partial.
Print Assumptions C62_conflicts_refused.
Print Assumptions C62_state_frame.
Print Assumptions C62_state_commit.
Print Assumptions C62_address_refuted.
Print Assumptions C63_state_proof_partial.
Print Assumptions C63_state_proof_refuted.
