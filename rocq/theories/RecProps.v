(** Properties of the recursive proofs (C52-C61).

    "Genuine" below means that every proof in the recursion states its own circuit as its verifier ([own_policy]); the code
    nowhere checks this (C52_recursion_refuted). [HR] is the graph of the hash function on the inputs hashed so far:
    [hash_cf] says that no collision is among them, [hash_nz] that none of them hashes to zero. *)
From stdpp Require Import prelude.
From Verif Require Import Field RecModel RecSpec RecProofs RecTrees RecState RecComplete RecAttack.
Open Scope Z_scope.

(** A toy hash for examples. *)
Definition H0 (l : list Z) : dig := Dig (1 + fold_right (fun x s => x + 7 * s) (Z.of_nat (length l)) l mod 1000003) 0 0 0.
Lemma H0_ok l : dig_ok (H0 l).
Proof.
  unfold H0, dig_ok, canon. cbn [d0 d1 d2 d3].
  pose proof (Z.mod_pos_bound (fold_right (fun x s => x + 7 * s) (Z.of_nat (length l)) l) 1000003 ltac:(lia)). unfold P. lia.
Qed.

Definition bw : dig := Dig 100 0 0 0. Definition bv : dig := Dig 200 0 0 0.
Definition dg (n : Z) : dig := Dig n 0 0 0.
Ltac kt := unfold fevent_ok, object_ok, dig_ok, canon, TWrite, TEnsure, TRead, TGive, TTake, TCredit, bw, bv, dg, P; cbn; lia.

(** ** C52: recursion of unbounded depth *)
(** An accepted proof that states its own circuit as verifier summarises a tree of leaf statements, each accepted by the leaf circuit. *)
Theorem C52_recursion_partial : forall A (c : ckt) (wf leaf : A -> Prop) (branch : A -> A -> A -> Prop) other a,
  acc c wf leaf branch other (VBranch c) (VBranch c, a) ->
  exists tl tr, WfTree (fun a => wf a /\ leaf a) (fun l r a => wf a /\ branch l r a) (BNode tl tr) a.
Proof. intros A c wf leaf branch other a X. exact (acc_tree c wf leaf branch other a X). Qed.
(** Conversely every such tree, of any shape and depth, has an accepted proof. *)
Theorem C52_recursion_complete : forall A (c : ckt) (wf leaf : A -> Prop) (branch : A -> A -> A -> Prop) other tl tr a,
  WfTree (fun a => wf a /\ leaf a) (fun l r a => wf a /\ branch l r a) (BNode tl tr) a ->
  acc c wf leaf branch other (VBranch c) (VBranch c, a).
Proof. intros A c wf leaf branch other tl tr a X. exact (tree_acc_gen c wf leaf branch other _ _ X). Qed.
(** But the verifier stated in a proof is chosen by the prover and checked by nobody: with a circuit that accepts anything
    (lib.rs dummy_circuit builds one), the event circuit's own branch circuit accepts an event root that no events have. *)
Theorem C52_recursion_refuted : forall H, (forall l, dig_ok (H l)) ->
  forall d, dig_ok d -> (forall l, H l <> d) ->
  ev_proof (HRf H) code_policy (fun _ _ => True) (EvPi d d d) /\ (forall T, ~ EventRoot (HRf H) T d).
Proof.
  intros H H_ok d K N. split.
  - exists (VAny 0). split; [exact I|]. apply (acc_forge CEvent ev_wf (ev_leaf (HRf H)) (ev_branch (HRf H)) _ 0 (EvPi d d d) (EvPi d d d)); try (split; [exact K|split; exact K]); try exact I.
    exists true. split; [apply (partial_dup H); exact K|]. split; [apply (partial_dup H); exact K|]. cbn; auto.
  - intros T R. inversion R as [e h [_ E]|l r hl hr h _ _ E]; subst; exact (N _ (eq_sym E)).
Qed.
Example C52_example : forall l, H0 l <> Dig 0 0 0 1.
Proof. intros l E. discriminate E. Qed.

(** ** C53: event roots *)
(** A genuine event-root proof's two roots are the field-hash root and the VM byte-hash root of one and the same tree of
    events, all owned by the stated owner. *)
Theorem C53_event_root_partial : forall HR oev x, ev_proof HR own_policy oev x ->
  exists T, EventRoot HR T (ev_hash x) /\ EventVmRoot HR T (ev_vm x) /\ Forall (fun e => fe_owner e = ev_owner x) (leaves T).
Proof. intros HR oev x X. destruct (ev_proof_tree HR oev x X) as (T & A & B & C & _). exists T. auto. Qed.
(** Without collisions the events are determined by the root. *)
Theorem C53_event_root_determines : forall HR T T' h, hash_cf HR -> EventRoot HR T h -> EventRoot HR T' h -> T = T'.
Proof.
  intros HR T T' h CF R R'. eapply (root_inj HR (fevent_hash HR) CF); [intros; eapply fevent_no_pair; eassumption|intros; eapply fevent_hash_cf; eassumption|exact R|exact R'].
Qed.
(** Every tree of events of one owner can be proved. *)
Theorem C53_event_root_complete : forall H oev T h hv owner, (forall l, dig_ok (H l)) ->
  EventRoot (HRf H) T h -> EventVmRoot (HRf H) T hv -> Forall (fun e => fe_owner e = owner) (leaves T) -> dig_ok owner ->
  ev_proof (HRf H) own_policy oev (EvPi h hv owner).
Proof. intros H oev T h hv owner K. apply ev_complete; exact K. Qed.
(** But the byte decomposition is not canonical: a VM event at the 64-bit address [a + P] can be proved as an event at [a]. *)
Theorem C53_address_refuted : forall H oev owner ty a value, (forall l, dig_ok (H l)) ->
  dig_ok owner -> canon ty -> 0 <= a < 2 ^ 32 - 1 -> dig_ok value ->
  a + P < 2 ^ 64 /\
  ev_proof (HRf H) own_policy oev
    (EvPi (H (delems owner ++ [ty; a] ++ delems value))               (* the event (owner, ty, a, value) *)
          (H (concat (map le8 ([ty; a + P] ++ delems value))))        (* the VM's hash of the event (ty, a + P, value) *)
          owner).
Proof.
  intros H oev owner ty a value H_ok Ko Kt Ha Kv. split; [unfold P; lia|].
  apply (ev_complete H H_ok oev (BLeaf (FEvent owner ty a value))); [| |repeat constructor|exact Ko].
  - constructor. split; [|reflexivity]. split; [exact Ko|]. split; [exact Kt|]. split; [kt|exact Kv].
  - constructor. exists ([ty; a + P] ++ delems value). split; [|reflexivity].
    constructor; [apply word_for_canon, Kt|]. constructor; [|apply words_for_canon, delems_canon, Kv].
    cbn. split; [kt|]. rewrite <- (Z.mul_1_l P) at 1. rewrite Z_mod_plus_full. apply Z.mod_small. unfold P. lia.
Qed.
Example C53_example : exists T h hv, EventRoot (HRf H0) T h /\ EventVmRoot (HRf H0) T hv /\
  leaves T = [FEvent (Dig 7 0 0 0) TWrite 3 (Dig 5 0 0 0); FEvent (Dig 7 0 0 0) TRead 4 dzero].
Proof.
  eexists (BNode (BLeaf _) (BLeaf _)). eexists. eexists.
  split; [|split; [|reflexivity]].
  - econstructor; [constructor; split; [|reflexivity]|constructor; split; [|reflexivity]|reflexivity].
    all: kt.
  - econstructor; [constructor; exists ([TWrite; 3] ++ delems (Dig 5 0 0 0)); split; [|reflexivity]
      |constructor; exists ([TRead; 4] ++ delems dzero); split; [|reflexivity]|].
    + repeat (constructor; [apply word_for_canon; kt|]). constructor.
    + repeat (constructor; [apply word_for_canon; kt|]). constructor.
    + eexists. split; [|reflexivity]. apply words_for_canon. apply List.Forall_app; split; apply delems_canon, H0_ok.
Qed.

(** ** C54: merging two event trees *)
(** A genuine merge proof's merged root is the root of a tree whose leaves interleave the leaves of the two given trees:
    nothing is lost, added or reordered. *)
Theorem C54_merge : forall HR omg x TA TB, hash_cf HR -> mg_proof HR own_policy omg x ->
  EventsRoot HR TA (mg_ap x) (mg_a x) -> EventsRoot HR TB (mg_bp x) (mg_b x) ->
  exists TM, EventsRoot HR TM (mg_mp x) (mg_m x) /\ Interleave (oleaves TA) (oleaves TB) (oleaves TM).
Proof.
  intros HR omg x TA TB CF M. apply (mg_proof_sound HR omg (fevent_hash HR) x CF); [intros; eapply fevent_no_pair; eassumption|exact M].
Qed.
(** Any tree whose leaves are marked as coming from one of two sides can be proved to be the merge of the two sides. *)
Theorem C54_merge_complete : forall H omg (t : btree (bool * dig)), (forall l, dig_ok (H l)) -> Forall (fun p => dig_ok p.2) (leaves t) ->
  exists x, mg_proof (HRf H) own_policy omg x /\
    ORoot eq (pair_hash (HRf H)) (prune true t) (mg_ap x) (mg_a x) /\
    ORoot eq (pair_hash (HRf H)) (prune false t) (mg_bp x) (mg_b x) /\
    ORoot eq (pair_hash (HRf H)) (Some (tmap snd t)) (mg_mp x) (mg_m x).
Proof. intros H omg t K. apply mg_complete; exact K. Qed.
Example C54_example : let t := BNode (BLeaf (true, Dig 1 0 0 0)) (BNode (BLeaf (false, Dig 2 0 0 0)) (BLeaf (true, Dig 3 0 0 0))) in
  Forall (fun p : bool * dig => dig_ok p.2) (leaves t) /\ oleaves (prune true t) = [Dig 1 0 0 0; Dig 3 0 0 0] /\ oleaves (prune false t) = [Dig 2 0 0 0].
Proof. cbn. split; [repeat constructor; kt|auto]. Qed.

(** ** C55: programs and transactions *)
(** A genuine transaction proof covers one or more transactions; each has programs that agree on call list and cast list,
    the cast list being exactly the programs' ids; each program's events carry the program's id and hash to what its own
    proof stated; all events are kept, in each program's order. *)
Theorem C55_transactions_partial : forall HR oev omg prog_acc opg otx x, hash_cf HR ->
  tx_proof HR own_policy oev omg prog_acc opg otx x ->
  exists txs TM, txs <> [] /\ Forall (transaction_ok HR prog_acc) txs /\
    EventsRoot HR TM (tx_ep x) (tx_ev x) /\ Shuffle (map (fun t => oleaves (tr_events t)) txs) (oleaves TM).
Proof.
  intros HR oev omg prog_acc opg otx x CF (v & -> & X). apply acc_tree in X as (? & ? & X).
  apply (tx_tree HR oev omg prog_acc opg _ _ CF) in X as (txs & TM & A & B & C & D & _). exists txs, TM. auto.
Qed.
(** But the verifier data of the program proof is not tied to the program id: whoever has one circuit that accepts a
    statement about the id [w] gets a genuine transaction proof with a write event owned by [w]. *)
Theorem C55_program_identity_refuted : forall H oev omg opg otx w v (prog_acc : vd -> prog_pi -> Prop) n, (forall l, dig_ok (H l)) ->
  dig_ok w -> w <> dzero -> dig_ok v -> (forall pr, prog_acc (VAny n) pr) ->
  exists x, tx_proof (HRf H) own_policy oev omg prog_acc opg otx x /\ EventsRoot (HRf H) (Some (BLeaf (FEvent w TWrite 0 v))) (tx_ep x) (tx_ev x).
Proof.
  intros H oev omg opg otx w v prog_acc n H_ok Kw Nw Kv Pa.
  set (he := H (delems w ++ [0; 0] ++ delems v)).
  exists (TxPi true he). split.
  - eapply (ob_tx (HRf H) own_policy ltac:(intros; reflexivity) oev omg prog_acc opg otx w v he (H (concat (map le8 ([0; 0] ++ delems v)))) _ _ _ _ _
      (H []) (H []) (H []) (H []) (H []) (VAny n)); try assumption; try reflexivity; [repeat (split; [apply H_ok|]); apply H_ok|apply Pa].
  - split; [reflexivity|]. constructor. split; [|reflexivity]. split; [exact Kw|]. split; [kt|]. split; [kt|exact Kv].
Qed.

(** ** C56: accumulating the events about one object *)
(** A genuine accumulated description is the description of a tree of events at one address: at most one write, give and take;
    the flags say which kinds occur; owners and data agree with every event; the credit delta is the sum, in the field. *)
Theorem C56_accumulate : forall HR oac x, ac_proof HR own_policy oac x ->
  exists T, EventRoot HR T (ac_hash x) /\ delta_of (leaves T) x.
Proof. intros HR oac x X. destruct (ac_proof_tree HR oac x X) as (T & A & B & _). exists T. auto. Qed.
Theorem C56_accumulate_complete : forall H oac T h ad oo no od nd, (forall l, dig_ok (H l)) -> EventRoot (HRf H) T h ->
  (forall e, In e (leaves T) -> fe_addr e = ad) ->
  (count_ty TWrite (leaves T) <= 1)%nat -> (count_ty TGive (leaves T) <= 1)%nat -> (count_ty TTake (leaves T) <= 1)%nat ->
  (forall e, In e (leaves T) -> event_agrees e oo no od nd) ->
  canon ad -> dig_ok oo -> dig_ok no -> dig_ok od -> dig_ok nd ->
  exists x, ac_proof (HRf H) own_policy oac x /\ ac_hash x = h /\ ac_addr x = ad /\ ac_oo x = oo /\ ac_no x = no /\ ac_od x = od /\ ac_nd x = nd.
Proof.
  intros H oac T h ad oo no od nd K R A W G Tk E C1 C2 C3 C4 C5.
  eexists. split; [apply (ac_complete H K oac T h ad oo no od nd); assumption|]. cbn. auto 10.
Qed.

(** ** C57: matching events against object changes *)
(** A genuine match proof describes a tree of object changes, each explained by its events. *)
Theorem C57_match : forall HR oac omd x, md_proof HR own_policy oac omd x ->
  exists ms, TreeRoot (fun c => EventRoot HR (oc_events c)) (pair_hash HR) ms (md_event x) /\
    TreeRoot (change_hash HR) (pair_hash HR) ms (md_state x) /\ Forall (transition_ok (md_height x)) (leaves ms).
Proof. intros HR oac omd x (v & -> & X). apply acc_tree in X as (? & ? & X). exact (md_tree HR oac _ _ X). Qed.
(** Every tree of legal changes can be proved. *)
Theorem C57_match_complete : forall H oac omd height ms he hs, (forall l, dig_ok (H l)) ->
  TreeRoot (fun c => EventRoot (HRf H) (oc_events c)) (pair_hash (HRf H)) ms he -> TreeRoot (change_hash (HRf H)) (pair_hash (HRf H)) ms hs ->
  Forall (legal_transition height) (leaves ms) -> canon height -> md_proof (HRf H) own_policy oac omd (MdPi he hs height).
Proof. intros H oac omd height ms he hs K. apply md_complete; exact K. Qed.
Example C57_example : legal_transition 9
  (OChange 3 (BNode (BLeaf (FEvent (Dig 7 0 0 0) TWrite 3 (Dig 5 0 0 0))) (BLeaf (FEvent (Dig 8 0 0 0) TRead 3 (Dig 4 0 0 0))))
     (Obj (Dig 7 0 0 0) 2 100 (Dig 4 0 0 0)) (Obj (Dig 7 0 0 0) 9 100 (Dig 5 0 0 0))).
Proof.
  unfold legal_transition. cbn [oc_addr oc_events oc_old oc_new leaves app o_owner o_updated o_credits o_data].
  assert (NG : ~ has TGive [FEvent (Dig 7 0 0 0) TWrite 3 (Dig 5 0 0 0); FEvent (Dig 8 0 0 0) TRead 3 (Dig 4 0 0 0)]) by (intros (e & [<-|[<-|[]]] & E); discriminate E).
  assert (NT : ~ has TTake [FEvent (Dig 7 0 0 0) TWrite 3 (Dig 5 0 0 0); FEvent (Dig 8 0 0 0) TRead 3 (Dig 4 0 0 0)]) by (intros (e & [<-|[<-|[]]] & E); discriminate E).
  assert (HW : has TWrite [FEvent (Dig 7 0 0 0) TWrite 3 (Dig 5 0 0 0); FEvent (Dig 8 0 0 0) TRead 3 (Dig 4 0 0 0)]) by (eexists; split; [left; reflexivity|reflexivity]).
  split; [kt|]. split; [kt|]. split; [kt|].
  split; [intros e [<-|[<-|[]]]; reflexivity|]. do 3 (split; [vm_compute; lia|]).
  split; [intros e [<-|[<-|[]]]; unfold event_agrees; cbn; repeat split; try discriminate|].
  split; [intros _; exact HW|]. split; [split; intros X; contradiction|]. split; [intros _; split; [reflexivity|discriminate]|].
  split; [intros X; contradiction|]. split; [reflexivity|]. split; [discriminate|]. split; [reflexivity|]. intros _ _ N. contradiction.
Qed.

(** ** C58: updating the state tree *)
(** An accepted state update of height [h] relates two perfect trees; every leaf that changes is summarised, the summary is the
    tree of exactly the touched leaves in order, and a touched leaf's address is its index (below the root's address). *)
Theorem C58_state_update : forall HR h x, su_acc HR h x -> exists t,
  StateTree HR h t (su_old x) (su_new x) /\
  (exists ts, ORoot (sleaf_hash HR) (pair_hash HR) ts (su_sp x) (su_sum x) /\ oleaves ts = List.filter sl_touched (leaves t)) /\
  (su_sp x = true -> forall i s, nth_error (leaves t) i = Some s -> sl_touched s = true ->
     sl_addr s = (su_addr x * 2 ^ Z.of_nat h + Z.of_nat i) mod P).
Proof. intros HR h x X. destruct (su_tree HR (fun _ _ => True) h x X) as (t & A & B & C & _). exists t. auto. Qed.
Theorem C58_state_update_complete : forall H h t, (forall l, dig_ok (H l)) -> perfect h t ->
  (forall s, In s (leaves t) -> sl_touched s = false -> sl_old s = sl_new s) ->
  (forall i s, nth_error (leaves t) i = Some s -> sl_touched s = true -> sl_addr s = Z.of_nat i mod P /\ sl_addr s <> P - 1) ->
  Forall (fun s => dig_ok (sl_old s) /\ dig_ok (sl_new s)) (leaves t) ->
  exists x, su_acc (HRf H) h x /\ StateTree (HRf H) h t (su_old x) (su_new x) /\ (su_sp x = true -> su_addr x = 0).
Proof.
  intros H h t K Pf Un Ad Ok. destruct (su_complete H K h 0 t Pf Un) as (x & A & B & C & _ & E & _); [|exact Ok|].
  - intros i s Hi Ht. rewrite Z.mul_0_l, Z.add_0_l. apply Ad; assumption.
  - exists x. split; [exact A|]. split; [split; [exact Pf|]; split; [exact B|]; split; [exact C|exact Un]|]. intros S. rewrite E, S. reflexivity.
Qed.

(** ** C59: chains of blocks; C60: one block *)
(** A genuine block proof stands for a chain of blocks from the base state, as many as its height says. *)
Theorem C59_chain_partial : forall HR oev omg prog_acc opg otx oac omd sh obk x, hash_cf HR -> hash_nz HR ->
  bk_acc HR own_policy oev omg prog_acc opg otx oac omd sh obk VBlock (VBlock, x) ->
  exists n, (0 < n)%nat /\ Chain HR prog_acc sh (bk_base x) n (bk_state x) /\ bk_height x = Z.of_nat n mod P.
Proof. intros HR oev omg prog_acc opg otx oac omd sh obk x CF NZ X. exact (block_chain HR oac oev omg prog_acc opg otx omd obk sh x CF NZ X). Qed.
(** In a block, every state leaf that changes has an event at its address, emitted by a program of one of the block's transactions. *)
Theorem C60_changes_have_events : forall HR oev omg prog_acc opg otx oac omd sh p x, hash_cf HR -> hash_nz HR ->
  bk_step HR own_policy oev omg prog_acc opg otx oac omd sh p x ->
  BlockChange HR prog_acc (bk_height x) sh (bk_state p) (bk_state x) /\
  exists t txs, StateTree HR sh t (bk_state p) (bk_state x) /\ Forall (transaction_ok HR prog_acc) txs /\
    forall i s, nth_error (leaves t) i = Some s -> sl_old s <> sl_new s ->
      exists tx pr e, In tx txs /\ In pr (leaves (tr_progs tx)) /\ In e (oleaves (pn_events pr)) /\
        fe_owner e = pn_id pr /\ fe_addr e = Z.of_nat i mod P.
Proof.
  intros HR oev omg prog_acc opg otx oac omd sh p x CF NZ S.
  pose proof (block_step HR oac oev omg prog_acc opg otx omd sh p x CF NZ S) as BC. split; [exact BC|].
  destruct BC as (t & ms & txs & St & Ad & F2 & Tr & Tx & Sh). exists t, txs. split; [exact St|]. split; [exact Tx|].
  intros i s Hi Ne.
  assert (Ht : sl_touched s = true).
  { destruct (sl_touched s) eqn:E; [reflexivity|]. exfalso. apply Ne. apply St; [eapply nth_error_In; exact Hi|exact E]. }
  assert (In s (List.filter sl_touched (leaves t))) as Is by (apply filter_In; split; [eapply nth_error_In; exact Hi|exact Ht]).
  assert (exists m, In m ms /\ sl_addr s = oc_addr m) as (m & Im & Em).
  { clear -F2 Is. induction F2 as [|a m l ms (E & _) F IH]; [contradiction|]. destruct Is as [<-|Is]; [exists m; split; [left; reflexivity|exact E]|].
    destruct (IH Is) as (m' & I' & E'). exists m'. split; [right; exact I'|exact E']. }
  rewrite List.Forall_forall in Tr, Tx. pose proof (Tr m Im) as (Am & _).
  destruct (leaves (oc_events m)) as [|e es] eqn:El; [exfalso; exact (leaves_nonnil _ El)|].
  assert (Ie : In e (concat (map (fun m => leaves (oc_events m)) ms))).
  { apply in_concat. exists (leaves (oc_events m)). split; [apply in_map_iff; exists m; auto|]. rewrite El. left. reflexivity. }
  apply (Shuffle_in _ _ _ Sh) in Ie as (l & Il & Ie). apply in_map_iff in Il as (tx & <- & Itx).
  pose proof (Tx tx Itx) as (_ & ShT & Fp). apply (Shuffle_in _ _ _ ShT) in Ie as (l & Il & Ie). apply in_map_iff in Il as (pr & <- & Ipr).
  rewrite List.Forall_forall in Fp. destruct (Fp pr Ipr) as (Ow & _). rewrite List.Forall_forall in Ow.
  exists tx, pr, e. split; [exact Itx|]. split; [exact Ipr|]. split; [exact Ie|]. split; [apply Ow, Ie|].
  rewrite (Am e (or_introl eq_refl)), <- Em. apply Ad; assumption.
Qed.
(** A block without any event cannot be proved. *)
Theorem C60_no_empty_blocks : forall HR oev omg prog_acc opg otx oac omd sh p x, hash_cf HR -> hash_nz HR ->
  bk_step HR own_policy oev omg prog_acc opg otx oac omd sh p x ->
  exists tx md su T, tx_proof HR own_policy oev omg prog_acc opg otx tx /\ md_proof HR own_policy oac omd md /\ su_acc HR sh su /\
    tx_ep tx = true /\ EventRoot HR T (tx_ev tx) /\ su_sp su = true.
Proof.
  intros HR oev omg prog_acc opg otx oac omd sh p x CF NZ (Eh & Eb & Es & tx & md & su & Atx & Amd & Asu & Sp & Sa & E1 & E2 & E3 & E4 & E5).
  destruct (C57_match _ _ _ _ Amd) as (ms & Re & _). destruct (events_flatten HR _ _ Re) as (T & RT & _).
  destruct (C55_transactions_partial _ _ _ _ _ _ _ CF Atx) as (txs & TM & _ & _ & RM & _).
  exists tx, md, su, T. rewrite E1. destruct TM as [TM|]; destruct RM as [Ep RM]; [auto 10|].
  exfalso. eapply event_root_nz; [exact NZ|exact RT|]. rewrite <- E1. exact RM.
Qed.
(** Without the check of the stated verifier the chain is broken: a block is accepted on top of any claimed state, height and
    base state, though no chain of blocks leads to it from that base state. *)
Theorem C59_chain_refuted : forall H w v base k n, (forall l, dig_ok (H l)) -> dig_ok w -> w <> dzero -> dig_ok v -> dig_ok base ->
  (forall l, H l <> base) -> 0 < k < P - 1 ->
  exists x, bk_acc (HRf H) code_policy (fun _ _ => False) (fun _ _ => False) (fun _ _ => True) (fun _ _ => False) (fun _ _ => False)
              (fun _ _ => False) (fun _ _ => False) 1 (fun _ _ => True) VBlock (VAny n, x) /\
    bk_base x = base /\ bk_height x = k + 1 /\
    forall m, (0 < m)%nat -> ~ Chain (HRf H) (fun _ _ => True) 1 base m (bk_state x).
Proof.
  intros H w v base k n H_ok Kw Nw Kv Kb Nb Hk.
  assert (Kk : canon (k + 1)) by (unfold canon; lia).
  pose proof (one_step_total H code_policy (fun _ _ => False) (fun _ _ => False) (fun _ _ => True) (fun _ _ => False) (fun _ _ => False)
              (fun _ _ => False) (fun _ _ => False) w v VBlock (k + 1) base k H_ok ltac:(intros; exact I) Kw Nw Kv Kk I
              ltac:(unfold fadd; rewrite Z.mod_small by lia; reflexivity) ltac:(intros X; lia)) as S. cbn zeta in S.
  match type of S with bk_step _ _ _ _ _ _ _ _ _ _ ?p ?x => set (xx := x) in *; set (pp := p) in * end.
  assert (Kx : bk_wf xx) by (split; [exact Kb|split; [apply H_ok|exact Kk]]).
  exists xx. split; [eapply bk_block; [|exact Kx|exact S]|]; unfold xx, pp.
  - cbn [bk_height]. destruct (Z.eqb_spec k 0) as [E|E]; [lia|]. apply bk_other; [|exact I]. split; [exact Kb|]. split; [apply H_ok|unfold canon; cbn; lia].
  - cbn [bk_base bk_height bk_state]. split; [reflexivity|]. split; [reflexivity|].
    assert (G : forall m s, (0 < m)%nat -> ~ Chain (HRf H) (fun _ _ => True) 1 base m s).
    { induction m as [|m IH]; intros s Hm C; [lia|]. inversion C as [|m' s0 s' C0 BC]; subst.
      destruct m as [|m]; [|eapply IH; [lia|exact C0]]. inversion C0; subst.
      destruct BC as (t & _ & _ & (Pf & R & _) & _). destruct t as [a|tl tr]; [contradiction|]. cbn in R.
      inversion R as [|? ? hl hr h' _ _ E]; subst. exact (Nb _ (eq_sym E)). }
    intros m Hm. apply G, Hm.
Qed.

(** ** C61: only the owner changes an object, ensured data is really there, credits do not go below zero *)
(** What holds: with a change of ownership the writer is the old owner; with a write the ensured data is the new data;
    credits change by the sum of the amounts, modulo the field size. *)
Theorem C61_object_rules_partial : forall HR oac omd x, md_proof HR own_policy oac omd x ->
  exists ms, TreeRoot (fun c => EventRoot HR (oc_events c)) (pair_hash HR) ms (md_event x) /\
    TreeRoot (change_hash HR) (pair_hash HR) ms (md_state x) /\
    forall c, In c (leaves ms) -> let es := leaves (oc_events c) in
      (forall e, In e es -> fe_ty e = TWrite -> has TGive es -> fe_owner e = o_owner (oc_old c)) /\
      (forall e, In e es -> fe_ty e = TEnsure -> has TWrite es -> o_data (oc_new c) = fe_value e) /\
      (o_credits (oc_new c) - o_credits (oc_old c)) mod P = credit_sum es mod P.
Proof.
  intros HR oac omd x X. destruct (C57_match _ _ _ _ X) as (ms & A & B & F). exists ms. split; [exact A|]. split; [exact B|].
  rewrite List.Forall_forall in F. intros c I es. specialize (F c I). unfold transition_ok in F. destruct F as (_ & _ & _ & _ & _ & _ & _ & E & _ & _ & _ & _ & _ & W & Cr & _). auto.
Qed.
(** Anybody can write: a write event by [w] changes an object owned by somebody else. *)
Theorem C61_owner_write_refuted : forall H oac omd w owner ad data value height, (forall l, dig_ok (H l)) ->
  dig_ok w -> dig_ok owner -> owner <> dzero -> w <> owner -> canon ad -> dig_ok data -> dig_ok value -> canon height ->
  exists he hs, md_proof (HRf H) own_policy oac omd (MdPi he hs height) /\
    EventRoot (HRf H) (BLeaf (FEvent w TWrite ad value)) he /\
    change_hash (HRf H) (OChange ad (BLeaf (FEvent w TWrite ad value)) (Obj owner 0 0 data) (Obj owner height 0 value)) hs.
Proof.
  intros H oac omd w owner ad data value height H_ok Kw Ko No _ Ka Kd Kv Kh.
  assert (Ke : fevent_ok (FEvent w TWrite ad value)) by (split; [exact Kw|]; split; [kt|]; split; [exact Ka|exact Kv]).
  eexists. eexists. split; [|split; [constructor; split; [exact Ke|reflexivity]|]].
  - eapply (md_single H H_ok oac omd (FEvent w TWrite ad value) owner owner data value (w, dzero) (dzero, value) height ad _ _ _ _ 0 0 0 _ height); cbn [fst snd fe_ty fe_owner fe_addr fe_value]; try assumption; try reflexivity; try apply dzero_ok; try (kt); try discriminate.
    all: try (left; reflexivity); try (right; reflexivity).
    unfold event_agrees. cbn. repeat split; try discriminate.
  - eexists. eexists. split; [reflexivity|]. split; [reflexivity|]. reflexivity.
Qed.
(** An ensure event is accepted whatever the object's data is. *)
Theorem C61_ensure_refuted : forall H oac omd w owner ad data value height, (forall l, dig_ok (H l)) ->
  dig_ok w -> dig_ok owner -> owner <> dzero -> value <> data -> canon ad -> dig_ok data -> dig_ok value -> canon height ->
  exists he hs, md_proof (HRf H) own_policy oac omd (MdPi he hs height) /\
    EventRoot (HRf H) (BLeaf (FEvent w TEnsure ad value)) he /\
    change_hash (HRf H) (OChange ad (BLeaf (FEvent w TEnsure ad value)) (Obj owner 0 0 data) (Obj owner 0 0 data)) hs.
Proof.
  intros H oac omd w owner ad data value height H_ok Kw Ko No _ Ka Kd Kv Kh.
  assert (Ke : fevent_ok (FEvent w TEnsure ad value)) by (split; [exact Kw|]; split; [kt|]; split; [exact Ka|exact Kv]).
  eexists. eexists. split; [|split; [constructor; split; [exact Ke|reflexivity]|]].
  - eapply (md_single H H_ok oac omd (FEvent w TEnsure ad value) owner owner data data (w, dzero) (dzero, value) height ad _ _ _ _ 0 0 0 _ 0); cbn [fst snd fe_ty fe_owner fe_addr fe_value]; try assumption; try reflexivity; try apply dzero_ok; try (kt); try discriminate.
    all: try (left; reflexivity); try (right; reflexivity).
    unfold event_agrees. cbn. repeat split; try discriminate.
  - eexists. eexists. split; [reflexivity|]. split; [reflexivity|]. reflexivity.
Qed.
(** Anybody can take credits, even from an object that has none: its credits become [P - 1]. *)
Theorem C61_credits_refuted : forall H oac omd w owner ad data height, (forall l, dig_ok (H l)) ->
  dig_ok w -> dig_ok owner -> owner <> dzero -> w <> owner -> canon ad -> dig_ok data -> canon height ->
  let e := FEvent w TCredit ad (Dig 1 0 0 1) in
  exists he hs, md_proof (HRf H) own_policy oac omd (MdPi he hs height) /\ credit_sum [e] = -1 /\
    EventRoot (HRf H) (BLeaf e) he /\
    change_hash (HRf H) (OChange ad (BLeaf e) (Obj owner 0 0 data) (Obj owner height (P - 1) data)) hs.
Proof.
  intros H oac omd w owner ad data height H_ok Kw Ko No _ Ka Kd Kh e.
  assert (K1 : dig_ok (Dig 1 0 0 1)) by kt.
  assert (Ke : fevent_ok e) by (split; [exact Kw|]; split; [unfold e; kt|]; split; [exact Ka|exact K1]).
  eexists. eexists. split; [|split; [reflexivity|split; [constructor; split; [exact Ke|reflexivity]|]]].
  - eapply (md_single H H_ok oac omd e owner owner data data (w, dzero) (dzero, dzero) height ad _ _ _ _ 0 0 (P - 1) _ height); unfold e; cbn [fst snd fe_ty fe_owner fe_addr fe_value]; try assumption; try reflexivity; try apply dzero_ok; try (kt); try discriminate.
    all: try (left; reflexivity); try (right; reflexivity).
    unfold event_agrees. cbn. repeat split; try discriminate; try lia; try (right; reflexivity).
  - eexists. eexists. split; [reflexivity|]. split; [reflexivity|]. reflexivity.
Qed.

(** ** A genuine block proof over a collision-free hash graph: the hypotheses of C52-C60 are met. *)
Definition log0 : list (list Z) :=
  [ delems bw ++ [0; 0] ++ delems bv; concat (map le8 ([0; 0] ++ delems bv)); delems (dg 1) ++ delems (dg 1);
    concat (map le8 (delems (dg 2) ++ delems (dg 2))); concat (map le8 (delems bw ++ delems bw)); delems (dg 1) ++ delems dzero; delems dzero ++ delems dzero;
    delems bw ++ [0; 0] ++ delems dzero; delems bw ++ [1; 0] ++ delems bv; [0] ++ delems (dg 8) ++ delems (dg 9);
    delems (dg 10) ++ delems (dg 10); [P - 1] ++ delems dzero ++ delems dzero; delems (dg 10) ++ delems dzero;
    delems (dg 8) ++ delems dzero; delems (dg 9) ++ delems dzero ].
Definition HRlog (x : list Z) (h : dig) : Prop := exists n, nth_error log0 n = Some x /\ h = dg (Z.of_nat n + 1).
Example C59_example : hash_cf HRlog /\ hash_nz HRlog /\
  bk_acc HRlog own_policy (fun _ _ => False) (fun _ _ => False) (fun _ _ => True) (fun _ _ => False) (fun _ _ => False)
    (fun _ _ => False) (fun _ _ => False) 1 (fun _ _ => False) VBlock (VBlock, BkPi (dg 14) (dg 15) 1).
Proof.
  split; [|split].
  - intros x y h (n & Ex & ->) (m & Ey & E). injection E as E. assert (n = m) by lia. subst m. congruence.
  - intros x (n & _ & E). injection E as E. lia.
  - assert (K : forall n, 0 <= n < 1000 -> dig_ok (dg n)) by (intros n Hn; kt).
    assert (L : forall n x, nth_error log0 n = Some x -> HRlog x (dg (Z.of_nat n + 1))) by (intros n x E; exists n; auto).
    apply (bk_block _ _ _ _ _ _ _ _ _ _ _ VBlock (BkPi (dg 14) (dg 14) 0)).
    + cbn. apply bk_dummy. split; [apply K; lia|]. split; [apply K; lia|kt].
    + split; [apply K; lia|]. split; [apply K; lia|kt].
    + eapply (ob_step HRlog own_policy ltac:(intros; reflexivity) _ _ (fun _ _ => True) _ _ _ _ bw bv (dg 1) (dg 2) (dg 3) (dg 4) (dg 5) (dg 6) (dg 7) (dg 11) (dg 12) (dg 13)
        (dg 8) (dg 9) (dg 10) (dg 14) (dg 15) VBlock 1).
      1: { kt. } 1: discriminate. 1: { kt. } 1: { kt. }
      1: { repeat (split; [apply K; lia|]). apply K; lia. }
      1: exact (L 0%nat _ eq_refl). 1: exact (L 1%nat _ eq_refl). 1: exact (L 2%nat _ eq_refl). 1: exact (L 3%nat _ eq_refl). 1: exact (L 4%nat _ eq_refl).
      1: exact (L 5%nat _ eq_refl). 1: exact (L 6%nat _ eq_refl). 1: exact (L 7%nat _ eq_refl). 1: exact (L 8%nat _ eq_refl). 1: exact (L 9%nat _ eq_refl).
      1: exact (L 10%nat _ eq_refl). 1: exact (L 11%nat _ eq_refl). 1: exact (L 12%nat _ eq_refl). 1: exact (L 13%nat _ eq_refl). 1: exact (L 14%nat _ eq_refl).
      1: exact I. 1: reflexivity. 1: reflexivity.
Qed.

Print Assumptions C52_recursion_partial.
Print Assumptions C52_recursion_complete.
Print Assumptions C52_recursion_refuted.
Print Assumptions C53_event_root_partial.
Print Assumptions C53_event_root_determines.
Print Assumptions C53_event_root_complete.
Print Assumptions C53_address_refuted.
Print Assumptions C54_merge.
Print Assumptions C54_merge_complete.
Print Assumptions C55_transactions_partial.
Print Assumptions C55_program_identity_refuted.
Print Assumptions C56_accumulate.
Print Assumptions C56_accumulate_complete.
Print Assumptions C57_match.
Print Assumptions C57_match_complete.
Print Assumptions C58_state_update.
Print Assumptions C58_state_update_complete.
Print Assumptions C59_chain_partial.
Print Assumptions C59_chain_refuted.
Print Assumptions C60_changes_have_events.
Print Assumptions C60_no_empty_blocks.
Print Assumptions C61_object_rules_partial.
Print Assumptions C61_owner_write_refuted.
Print Assumptions C61_ensure_refuted.
Print Assumptions C61_credits_refuted.
