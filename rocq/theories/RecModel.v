(** Model of the recursive-proof circuits (crate recproofs): each circuit is the relation that its constraints
    impose on its public inputs, its private inputs being existentially quantified.

    Reading of plonky2 (external, not modelled): a target is a field element, represented by its canonical
    integer in [0, P); a target made by add_virtual_bool_target_safe, is_equal, is_nonzero, and / or of booleans or a
    one-bit split is a [bool]; select / and / or / not are the boolean operations; connect is equality;
    split_le and range_check are integer range conditions; verify_proof(proof, vd) holds exactly when [proof] is an
    accepted proof of the circuit with verifier data [vd].  A hash gate (hash_n_to_hash_no_pad) with inputs [x] and output
    [h] is satisfied when [HR x h]; [HR] is a parameter. The code is the instance [HR x h := h = H x] for the hash function
    [H]. To speak about a history in which no hash collision occurred, [HR] is the (collision-free) graph of [H] on
    the inputs hashed in that history. *)
From stdpp Require Import prelude.
From Verif Require Import Field.
Open Scope Z_scope.

(** Four field elements: HashOut / HashOutTarget / [Target; 4]. *)
Record dig := Dig { d0 : Z; d1 : Z; d2 : Z; d3 : Z }.
Definition delems (d : dig) : list Z := [d0 d; d1 d; d2 d; d3 d].
Definition dzero : dig := Dig 0 0 0 0.
Definition dig_ok (d : dig) : Prop := canon (d0 d) /\ canon (d1 d) /\ canon (d2 d) /\ canon (d3 d).
Definition fadd (a b : Z) : Z := (a + b) mod P.
Definition dadd (a b : dig) : dig := Dig (fadd (d0 a) (d0 b)) (fadd (d1 a) (d1 b)) (fadd (d2 a) (d2 b)) (fadd (d3 a) (d3 b)).

(** Verifier data of a circuit. The circuits of this crate have fixed data; [VAny n] are circuits built by anybody
    else with the same shape (common data): lib.rs:596-625 dummy_circuit builds such circuits. *)
Inductive ckt := CEvent | CMerge | CProgram | CTx | CAcc | CMatch.
Inductive vd := VLeaf (c : ckt) | VBranch (c : ckt) | VBlock | VDummyBlock | VAny (n : nat).
Global Instance ckt_eqd : EqDecision ckt. Proof. solve_decision. Defined.
Global Instance vd_eqd : EqDecision vd. Proof. solve_decision. Defined.
Global Instance dig_eqd : EqDecision dig. Proof. solve_decision. Defined.

(** ** subcircuits/unbounded.rs:43-180 (leaf: 53-83, branch: 131-180).
    A proof's public inputs are (verifier, a). A leaf does not constrain the verifier it states; a branch states the same
    verifier as both children and verifies each child either with the leaf circuit's verifier or with the stated one.
    [other n] is what the circuit with data [VAny n] accepts. *)
Section Unbounded.
  Context {A : Type} (c : ckt) (wf : A -> Prop) (leaf : A -> Prop) (branch : A -> A -> A -> Prop)
          (other : nat -> vd * A -> Prop).
  Inductive acc : vd -> vd * A -> Prop :=
  | acc_leaf v a : wf a -> leaf a -> acc (VLeaf c) (v, a)
  | acc_branch v (lleaf rleaf : bool) l r a :
      acc (if lleaf then VLeaf c else v) (v, l) -> acc (if rleaf then VLeaf c else v) (v, r) ->
      wf a -> branch l r a -> acc (VBranch c) (v, a)
  | acc_other n v a : wf a -> other n (v, a) -> acc (VAny n) (v, a).
End Unbounded.

Section Rec.
  Variable HR : list Z -> dig -> Prop.             (* Poseidon2Hash::hash_no_pad *)

  (** lib.rs:429-456 hash_or_forward *)
  Definition hash_or_forward (lp : bool) (l : dig) (rp : bool) (r out : dig) : Prop :=
    exists h, HR (delems l ++ delems r) h /\ out = (if lp && rp then h else dadd l r).
  (** lib.rs:460-474 at_least_one_true, on two booleans *)
  Definition at_least_one_true (a b : bool) : Prop := a || b = true.
  (** lib.rs:419-426 hash_is_zero, 330-349 hashes_equal, are_equal *)
  Definition dig_eqb (a b : dig) : bool := bool_decide (a = b).
  Definition hash_is_zero (a : dig) : bool := dig_eqb a dzero.
  (** lib.rs:477-489 maybe_connect *)
  Definition maybe_connect (x : dig) (b : bool) (v : dig) : Prop := b = true -> x = v.

  (** lib.rs:524-541 split_bytes: [n] bytes remain; every step but the last splits off 8 bits, range checking the low
      part to 8 bits and the rest to 8*(n-1) bits (plonky2 split_low_high); the last byte is what remains. *)
  Fixpoint split_from (n : nat) (source : Z) (bs : list Z) : Prop :=
    match n, bs with
    | S O, [b] => b = source
    | S m, lo :: tl => exists rest, 0 <= lo < 2 ^ 8 /\ 0 <= rest < 2 ^ (8 * Z.of_nat m) /\
                                    (rest * 2 ^ 8 + lo) mod P = source /\ split_from m rest tl
    | _, _ => False
    end.
  Definition split_bytes (x : Z) (bs : list Z) : Prop := split_from 8 x bs.
  (** lib.rs:543-552 byte_wise_hash *)
  Definition byte_wise_hash (xs : list Z) (h : dig) : Prop :=
    exists bss, Forall2 split_bytes xs bss /\ HR (concat bss) h.
  (** lib.rs:503-511 hash_event; 513-522 byte_wise_hash_event *)
  Definition hash_event (owner : dig) (ty address : Z) (value h : dig) : Prop :=
    HR (delems owner ++ [ty; address] ++ delems value) h.
  Definition byte_wise_hash_event (ty address : Z) (value : dig) (h : dig) : Prop :=
    byte_wise_hash ([ty; address] ++ delems value) h.

  (** ** subcircuits/unpruned.rs: build_branch 170-189, build_extended_branch 191-217 (helper 126-168).
      [vm]: byte-wise hashing; [partial]: forward the left hash. *)
  Definition hash_pair (vm : bool) (l r h : dig) : Prop :=
    if vm then byte_wise_hash (delems l ++ delems r) h else HR (delems l ++ delems r) h.
  Definition unpruned_branch (vm partial : bool) (l r self : dig) : Prop :=
    exists calc, hash_pair vm l r calc /\ self = (if partial then l else calc).

  (** ** circuits/build_event_root.rs: public inputs 22-28; leaf 117-152; branch 262-309 *)
  Record ev_pi := EvPi { ev_hash : dig; ev_vm : dig; ev_owner : dig }.
  Definition ev_wf (a : ev_pi) : Prop := dig_ok (ev_hash a) /\ dig_ok (ev_vm a) /\ dig_ok (ev_owner a).
  Definition ev_leaf (a : ev_pi) : Prop :=
    exists ty address value, canon ty /\ canon address /\ dig_ok value /\
      hash_event (ev_owner a) ty address value (ev_hash a) /\
      byte_wise_hash_event ty address value (ev_vm a).
  Definition ev_branch (l r a : ev_pi) : Prop :=
    exists partial, unpruned_branch false partial (ev_hash l) (ev_hash r) (ev_hash a) /\
      unpruned_branch true partial (ev_vm l) (ev_vm r) (ev_vm a) /\
      (* subcircuits/propagate.rs:97-118 *)
      ev_owner a = ev_owner l /\ ev_owner l = ev_owner r.

  (** ** circuits/merge/core.rs: public inputs 21-39; leaf 92-120; branch 187-243 *)
  Record mg_pi := MgPi { mg_ap : bool; mg_a : dig; mg_bp : bool; mg_b : dig; mg_mp : bool; mg_m : dig }.
  Definition mg_wf (x : mg_pi) : Prop := dig_ok (mg_a x) /\ dig_ok (mg_b x) /\ dig_ok (mg_m x).
  Definition mg_leaf (x : mg_pi) : Prop :=
    at_least_one_true (hash_is_zero (mg_a x)) (mg_ap x) /\
    at_least_one_true (hash_is_zero (mg_b x)) (mg_bp x) /\
    mg_mp x = mg_ap x || mg_bp x /\
    hash_or_forward (mg_ap x) (mg_a x) (mg_bp x) (mg_b x) (mg_m x).
  Definition mg_branch (l r x : mg_pi) : Prop :=
    mg_ap x = mg_ap l || mg_ap r /\ mg_bp x = mg_bp l || mg_bp r /\ mg_mp x = mg_mp l || mg_mp r /\
    hash_or_forward (mg_ap l) (mg_a l) (mg_ap r) (mg_a r) (mg_a x) /\
    hash_or_forward (mg_bp l) (mg_b l) (mg_bp r) (mg_b r) (mg_b x) /\
    hash_or_forward (mg_mp l) (mg_m l) (mg_mp r) (mg_m r) (mg_m x).

  (** A circuit that verifies a proof of one of the unbounded circuits does so with that circuit's constant branch verifier
      data and does not look at the verifier stated in the proof's public inputs: [policy] is [fun _ _ => True] in the
      code. Other policies serve to state what a check would give. *)
  Variable policy : ckt -> vd -> Prop.
  (** What the prover's own circuits (same shape as the respective circuit) accept. *)
  Variables (oev : nat -> vd * ev_pi -> Prop) (omg : nat -> vd * mg_pi -> Prop).
  Definition ev_acc := acc CEvent ev_wf ev_leaf ev_branch oev.
  Definition mg_acc := acc CMerge mg_wf mg_leaf mg_branch omg.
  Definition ev_proof (a : ev_pi) : Prop := exists v, policy CEvent v /\ ev_acc (VBranch CEvent) (v, a).
  Definition mg_proof (a : mg_pi) : Prop := exists v, policy CMerge v /\ mg_acc (VBranch CMerge) (v, a).

  (** ** circuits/merge/embed.rs:125-186 build_branch. false_if / zero_hash_if: lib.rs:230-268 *)
  Definition em_branch (partial : bool) (lp : bool) (l : dig) (rp : bool) (r : dig) (sp : bool) (s : dig) : Prop :=
    exists m, mg_proof m /\
      mg_ap m = lp /\ mg_bp m = (if partial then false else rp) /\ mg_mp m = sp /\
      mg_a m = l /\ mg_b m = (if partial then dzero else r) /\ mg_m m = s.

  (** ** circuits/verify_program: public inputs 23-30; leaf 130-215 with core.rs:69-125 (program verifier: any
      verifier data; its hash is computed but used nowhere) and core.rs:173-236 (event root verifier, or the zero circuit
      when no events are present); branch 302-370. *)
  Record pg_pi := PgPi { pg_id : dig; pg_ep : bool; pg_ev : dig; pg_call : dig; pg_cast : dig }.
  Definition pg_wf (x : pg_pi) : Prop := dig_ok (pg_id x) /\ dig_ok (pg_ev x) /\ dig_ok (pg_call x) /\ dig_ok (pg_cast x).
  (** public inputs of a program proof (core.rs:20-35) *)
  Record prog_pi := ProgPi { pr_id : dig; pr_ep : bool; pr_ev : dig; pr_call : dig; pr_cast : dig }.
  (** [prog_acc vdata pis]: the circuit with verifier data [vdata] accepts the program public inputs [pis]. *)
  Variable prog_acc : vd -> prog_pi -> Prop.
  Definition pg_leaf (x : pg_pi) : Prop :=
    exists vdata pr ev present,
      prog_acc vdata pr /\
      (if present : bool then ev_proof ev else ev_hash ev = dzero /\ ev_vm ev = dzero /\ dig_ok (ev_owner ev)) /\
      pr_id pr = pg_id x /\ ev_owner ev = pg_id x /\
      pg_ep x = pr_ep pr /\ pg_ep x = present /\
      pr_ev pr = ev_vm ev /\ pg_ev x = ev_hash ev /\
      pr_call pr = pg_call x /\ pr_cast pr = pg_cast x.
  Definition pg_branch (l r x : pg_pi) : Prop :=
    exists partial, unpruned_branch true partial (pg_id l) (pg_id r) (pg_id x) /\
      em_branch partial (pg_ep l) (pg_ev l) (pg_ep r) (pg_ev r) (pg_ep x) (pg_ev x) /\
      (pg_call x = pg_call l /\ pg_call l = pg_call r) /\
      (pg_cast x = pg_cast l /\ pg_cast l = pg_cast r).
  Variable opg : nat -> vd * pg_pi -> Prop.
  Definition pg_acc := acc CProgram pg_wf pg_leaf pg_branch opg.
  Definition pg_proof (x : pg_pi) : Prop := exists v, policy CProgram v /\ pg_acc (VBranch CProgram) (v, x).

  (** ** circuits/verify_tx: leaf 84-126 with core.rs:28-75 (the cast list equals the program-id tree); branch 176-212 *)
  Record tx_pi := TxPi { tx_ep : bool; tx_ev : dig }.
  Definition tx_wf (x : tx_pi) : Prop := dig_ok (tx_ev x).
  Definition tx_leaf (x : tx_pi) : Prop :=
    exists p, pg_proof p /\ pg_cast p = pg_id p /\ tx_ev x = pg_ev p /\ tx_ep x = pg_ep p.
  Definition tx_branch (l r x : tx_pi) : Prop :=
    exists partial, em_branch partial (tx_ep l) (tx_ev l) (tx_ep r) (tx_ev r) (tx_ep x) (tx_ev x).
  Variable otx : nat -> vd * tx_pi -> Prop.
  Definition tx_acc := acc CTx tx_wf tx_leaf tx_branch otx.
  Definition tx_proof (x : tx_pi) : Prop := exists v, policy CTx v /\ tx_acc (VBranch CTx) (v, x).

  (** ** circuits/accumulate_delta/core.rs: public inputs 16-62; leaf 160-255; branch 410-486.
      Event types lib.rs:119-127; flag bits lib.rs:139-149. SplitFlags::split (core.rs:94-127) is the unique
      decomposition of a number below 2^5 into its bits; a sum of two flag bits is connected to a bit, so it is
      stated over the integers. *)
  Definition TWrite : Z := 0. Definition TEnsure : Z := 1. Definition TRead : Z := 2.
  Definition TGive : Z := 3. Definition TTake : Z := 4. Definition TCredit : Z := 5.
  Definition FWrite : Z := 0. Definition FEnsure : Z := 1. Definition FRead : Z := 2.
  Definition FGive : Z := 3. Definition FTake : Z := 4.
  Definition FCOUNT : Z := 5.
  Definition MAX_LEAF_TRANSFER : Z := 40.
  Record ac_pi := AcPi { ac_hash : dig; ac_addr : Z; ac_flags : Z; ac_oo : dig; ac_no : dig; ac_od : dig; ac_nd : dig; ac_cd : Z }.
  Definition ac_wf (x : ac_pi) : Prop :=
    dig_ok (ac_hash x) /\ canon (ac_addr x) /\ canon (ac_flags x) /\ dig_ok (ac_oo x) /\ dig_ok (ac_no x) /\
    dig_ok (ac_od x) /\ dig_ok (ac_nd x) /\ canon (ac_cd x).
  Definition flag (x : ac_pi) (i : Z) : bool := Z.testbit (ac_flags x) i.
  (** accumulate_delta.rs:134-166 adds the event hash *)
  Definition ac_leaf (x : ac_pi) : Prop :=
    exists owner ty value, dig_ok owner /\ canon ty /\ dig_ok value /\
      let is t := ty =? t in
      0 <= ac_flags x < 2 ^ FCOUNT /\
      flag x FWrite = is TWrite /\ flag x FRead = is TRead /\ flag x FEnsure = is TEnsure /\
      flag x FGive = is TGive /\ flag x FTake = is TTake /\
      maybe_connect (ac_oo x) (is TWrite || is TGive || is TCredit) owner /\
      maybe_connect (ac_oo x) (is TTake) value /\
      maybe_connect (ac_no x) (is TTake) owner /\
      maybe_connect (ac_no x) (is TGive) value /\
      maybe_connect (ac_od x) (is TRead) value /\
      maybe_connect (ac_nd x) (is TWrite || is TEnsure) value /\
      (let cv := if is TCredit then d0 value else 0 in
       let cs := if is TCredit then d3 value else 0 in
       0 <= cv < 2 ^ MAX_LEAF_TRANSFER /\ (cs = 0 \/ cs = 1) /\ ac_cd x = (cv * (1 - 2 * cs)) mod P) /\
      hash_event owner ty (ac_addr x) value (ac_hash x).
  Definition ac_clear (partial : bool) (r : ac_pi) : ac_pi :=
    if partial then AcPi (ac_hash r) (ac_addr r) 0 (ac_oo r) (ac_no r) (ac_od r) (ac_nd r) 0 else r.
  Definition owner_flag (x : ac_pi) : bool := flag x FGive || flag x FTake.
  Definition ac_branch (l r0 x : ac_pi) : Prop :=
    exists partial, let r := ac_clear partial r0 in
      unpruned_branch false partial (ac_hash l) (ac_hash r0) (ac_hash x) /\
      ac_addr x = ac_addr l /\ ac_addr x = ac_addr r /\
      0 <= ac_flags x < 2 ^ FCOUNT /\ 0 <= ac_flags l < 2 ^ FCOUNT /\ 0 <= ac_flags r < 2 ^ FCOUNT /\
      Z.b2z (flag l FWrite) + Z.b2z (flag r FWrite) = Z.b2z (flag x FWrite) /\
      Z.b2z (flag l FGive) + Z.b2z (flag r FGive) = Z.b2z (flag x FGive) /\
      Z.b2z (flag l FTake) + Z.b2z (flag r FTake) = Z.b2z (flag x FTake) /\
      flag x FEnsure = flag l FEnsure || flag r FEnsure /\
      flag x FRead = flag l FRead || flag r FRead /\
      maybe_connect (ac_oo x) (flag l FWrite || owner_flag l) (ac_oo l) /\
      maybe_connect (ac_oo x) (flag r FWrite || owner_flag r) (ac_oo r) /\
      maybe_connect (ac_no x) (owner_flag l) (ac_no l) /\
      maybe_connect (ac_no x) (owner_flag r) (ac_no r) /\
      maybe_connect (ac_od x) (flag l FRead) (ac_od l) /\
      maybe_connect (ac_od x) (flag r FRead) (ac_od r) /\
      maybe_connect (ac_nd x) (flag l FWrite || flag l FEnsure) (ac_nd l) /\
      maybe_connect (ac_nd x) (flag r FWrite || flag r FEnsure) (ac_nd r) /\
      ac_cd x = fadd (ac_cd l) (ac_cd r).
  Variable oac : nat -> vd * ac_pi -> Prop.
  Definition ac_acc := acc CAcc ac_wf ac_leaf ac_branch oac.
  Definition ac_proof (x : ac_pi) : Prop := exists v, policy CAcc v /\ ac_acc (VBranch CAcc) (v, x).

  (** ** circuits/match_delta: public inputs; leaf match_delta.rs:125-262 with match_delta/core.rs:71-150; branch 346-430 *)
  Record md_pi := MdPi { md_event : dig; md_state : dig; md_height : Z }.
  Definition md_wf (x : md_pi) : Prop := dig_ok (md_event x) /\ dig_ok (md_state x) /\ canon (md_height x).
  (** lib.rs:197-209 Object and its hash; lib.rs:211-219 summarize *)
  Record object := Obj { o_owner : dig; o_updated : Z; o_credits : Z; o_data : dig }.
  Definition object_ok (o : object) : Prop := dig_ok (o_owner o) /\ canon (o_updated o) /\ canon (o_credits o) /\ dig_ok (o_data o).
  Definition object_hash (o : object) (h : dig) : Prop := HR (delems (o_owner o) ++ [o_updated o; o_credits o] ++ delems (o_data o)) h.
  Definition summarize (address : Z) (old new h : dig) : Prop := HR ([address] ++ delems old ++ delems new) h.
  Definition b2 (b : bool) : Z := Z.b2z b.
  Definition md_core (height address flags : Z) (oo no od nd : dig) (updated oc nc : Z) (state : dig) : Prop :=
    let write := Z.testbit flags FWrite in let give := Z.testbit flags FGive in let take := Z.testbit flags FTake in
    let credits_updated := negb (oc =? nc) in
    let creation := hash_is_zero oo in let deletion := hash_is_zero no in
    0 <= flags < 2 ^ FCOUNT /\
    give = take /\
    dig_eqb od nd || write = true /\
    b2 creation + b2 deletion + b2 (dig_eqb oo no) = 1 /\
    b2 creation + b2 deletion = b2 give /\
    let new_updated := if deletion then 0 else if give || write || credits_updated then height else updated in
    exists ho hn, object_hash (Obj oo updated oc od) ho /\ object_hash (Obj no new_updated nc nd) hn /\ summarize address ho hn state.
  Definition md_leaf (x : md_pi) : Prop :=
    exists a oo no od nd updated oc nc,
      ac_proof a /\ dig_ok oo /\ dig_ok no /\ dig_ok od /\ dig_ok nd /\ canon updated /\ canon oc /\ canon nc /\
      md_core (md_height x) (ac_addr a) (ac_flags a) oo no od nd updated oc nc (md_state x) /\
      md_event x = ac_hash a /\
      maybe_connect oo (owner_flag a) (ac_oo a) /\
      maybe_connect no (owner_flag a) (ac_no a) /\
      maybe_connect od (flag a FRead) (ac_od a) /\
      maybe_connect nd (flag a FWrite) (ac_nd a) /\
      (nc - oc) mod P = ac_cd a.
  Definition md_branch (l r x : md_pi) : Prop :=
    exists partial, unpruned_branch false partial (md_event l) (md_event r) (md_event x) /\
      unpruned_branch false partial (md_state l) (md_state r) (md_state x) /\
      md_height x = md_height l /\ md_height l = md_height r.
  Variable omd : nat -> vd * md_pi -> Prop.
  Definition md_acc := acc CMatch md_wf md_leaf md_branch omd.
  Definition md_proof (x : md_pi) : Prop := exists v, policy CMatch v /\ md_acc (VBranch CMatch) (v, x).

  (** ** circuits/state_update.rs: leaf 98-155 with summarized.rs:45-57, verify_address.rs:47-64; branch 243-305 with
      bounded.rs:79-100 (one circuit per height: the verifier data of the child is a constant), summarized.rs:137-172,
      verify_address.rs:128-170. Division by two is multiplication by its inverse: the quotient is the [q] with 2q = x. *)
  Record su_pi := SuPi { su_sp : bool; su_sum : dig; su_old : dig; su_new : dig; su_addr : Z }.
  Definition su_wf (x : su_pi) : Prop := dig_ok (su_sum x) /\ dig_ok (su_old x) /\ dig_ok (su_new x) /\ canon (su_addr x).
  Definition su_leaf (x : su_pi) : Prop :=
    at_least_one_true (hash_is_zero (su_sum x)) (su_sp x) /\
    su_sp x = negb (fadd (su_addr x) 1 =? 0) /\
    at_least_one_true (dig_eqb (su_old x) (su_new x)) (su_sp x) /\
    exists h, summarize (su_addr x) (su_old x) (su_new x) h /\ su_sum x = (if su_sp x then h else dzero).
  Definition half_of (x q : Z) : Prop := canon q /\ (2 * q) mod P = x.
  Definition su_branch (l r x : su_pi) : Prop :=
    su_sp x = su_sp l || su_sp r /\
    hash_or_forward (su_sp l) (su_sum l) (su_sp r) (su_sum r) (su_sum x) /\
    unpruned_branch false false (su_old l) (su_old r) (su_old x) /\
    unpruned_branch false false (su_new l) (su_new r) (su_new x) /\
    exists lp rp, half_of (su_addr l) lp /\ half_of ((su_addr r - 1) mod P) rp /\
      (su_sp l && su_sp r = true -> lp = rp) /\
      su_addr x = (if su_sp l || su_sp r then (if su_sp l then lp else rp) else su_addr l).
  Fixpoint su_acc (h : nat) (x : su_pi) : Prop :=
    match h with
    | O => su_wf x /\ su_leaf x
    | S h => exists l r, su_acc h l /\ su_acc h r /\ su_wf x /\ su_branch l r x
    end.

  (** ** circuits/verify_block.rs:262-312 and verify_block/core.rs:96-170 (chaining), 265-290, 335-365, 410-455.
      [su_height] is the height of the state tree. The dummy circuit of core.rs:112 accepts any public inputs. *)
  Record bk_pi := BkPi { bk_base : dig; bk_state : dig; bk_height : Z }.
  Definition bk_wf (x : bk_pi) : Prop := dig_ok (bk_base x) /\ dig_ok (bk_state x) /\ canon (bk_height x).
  Variable su_height : nat.
  Variable obk : nat -> vd * bk_pi -> Prop.
  Definition bk_step (p x : bk_pi) : Prop :=
    let non_base := negb (bk_height p =? 0) in
    bk_height x = fadd (bk_height p) 1 /\ bk_base x = bk_base p /\
    (if non_base then bk_base p else bk_state p) = bk_base p /\
    exists tx md su, tx_proof tx /\ md_proof md /\ su_acc su_height su /\
      su_sp su = true /\ su_addr su = 0 /\
      tx_ev tx = md_event md /\ md_height md = bk_height x /\ md_state md = su_sum su /\
      su_old su = bk_state p /\ su_new su = bk_state x.
  Inductive bk_acc : vd -> vd * bk_pi -> Prop :=
  | bk_dummy v x : bk_wf x -> bk_acc VDummyBlock (v, x)
  | bk_block v p x : bk_acc (if bk_height p =? 0 then VDummyBlock else v) (v, p) -> bk_wf x -> bk_step p x ->
      bk_acc VBlock (v, x)
  | bk_other n v x : bk_wf x -> obk n (v, x) -> bk_acc (VAny n) (v, x).
End Rec.

(** The code checks nothing about the stated verifier. *)
Definition code_policy : ckt -> vd -> Prop := fun _ _ => True.
(** A check that the stated verifier is the circuit's own. *)
Definition own_policy : ckt -> vd -> Prop := fun c v => v = VBranch c.
