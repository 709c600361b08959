(** The block proposer's state tree refines the map of cells. *)
From stdpp Require Import prelude.
From Verif Require Import Field RecModel RecSpec RecProofs RecTrees RecState RecComplete NodeModel NodeSpec.
Open Scope Z_scope.

Lemma P_pos : 0 < P. Proof. reflexivity. Qed.
Lemma half2 : (2 * ((P + 1) / 2)) mod P = 1. Proof. reflexivity. Qed.
Lemma fhalf_double q : fhalf ((2 * q) mod P) = q mod P.
Proof.
  unfold fhalf. rewrite Z.mul_mod_idemp_l by (vm_compute; discriminate).
  replace (2 * q * ((P + 1) / 2)) with (q * (2 * ((P + 1) / 2))) by ring.
  rewrite <- Z.mul_mod_idemp_r by (vm_compute; discriminate). rewrite half2, Z.mul_1_r. reflexivity.
Qed.
Lemma fhalf_double' q : fhalf (((2 * q + 1) mod P - 1) mod P) = q mod P.
Proof. rewrite <- (fhalf_double q). f_equal. rewrite Zminus_mod_idemp_l. f_equal. lia. Qed.
Lemma fhalf_ok x : canon x -> half_of x (fhalf x).
Proof.
  intros C. split; [unfold fhalf, canon; apply Z.mod_pos_bound, P_pos|].
  unfold fhalf. rewrite Z.mul_mod_idemp_r by (vm_compute; discriminate).
  replace (2 * (x * ((P + 1) / 2))) with (x * (2 * ((P + 1) / 2))) by ring.
  rewrite <- Z.mul_mod_idemp_r by (vm_compute; discriminate). rewrite half2, Z.mul_1_r. apply Z.mod_small, C.
Qed.

Lemma path_next_eq h a : path_next (h, a) = (match h with O => None | S h' => Some (h', a mod 2 ^ Z.of_nat h) end, Z.testbit a (Z.of_nat h)).
Proof.
  unfold path_next. destruct h as [|h]; [reflexivity|]. do 2 f_equal. f_equal.
  replace (2 ^ Z.of_nat (S h) - 1) with (Z.ones (Z.of_nat (S h))) by (rewrite Z.ones_equiv; lia).
  apply Z.land_ones. lia.
Qed.
Lemma testbit_split q h a : (q * 2 ^ Z.of_nat (S h) <= a < q * 2 ^ Z.of_nat (S h) + 2 ^ Z.of_nat (S h)) ->
  let right := Z.testbit a (Z.of_nat h) in
  (if right then 2 * q + 1 else 2 * q) * 2 ^ Z.of_nat h <= a < (if right then 2 * q + 1 else 2 * q) * 2 ^ Z.of_nat h + 2 ^ Z.of_nat h.
Proof.
  intros R. cbn zeta. rewrite Z.testbit_odd, Z.shiftr_div_pow2 by lia.
  rewrite Nat2Z.inj_succ, Z.pow_succ_r in R by lia. set (B := 2 ^ Z.of_nat h) in *.
  assert (0 < B) by (apply Z.pow_pos_nonneg; lia).
  assert (a / B = 2 * q \/ a / B = 2 * q + 1) as [E|E].
  { assert (2 * q <= a / B) by (apply Z.div_le_lower_bound; lia). assert (a / B < 2 * q + 2) by (apply Z.div_lt_upper_bound; lia). lia. }
  - rewrite E. replace (Z.odd (2 * q)) with false by (rewrite Z.odd_mul; reflexivity). pose proof (Z.div_mod a B ltac:(lia)). pose proof (Z.mod_pos_bound a B ltac:(lia)). rewrite E in *. nia.
  - rewrite E. replace (Z.odd (2 * q + 1)) with true by (rewrite Z.add_comm, Z.odd_add_mul_2; reflexivity).
    pose proof (Z.div_mod a B ltac:(lia)). pose proof (Z.mod_pos_bound a B ltac:(lia)). rewrite E in *. nia.
Qed.
Lemma testbit_mod a h : Z.testbit (a mod 2 ^ Z.of_nat (S h)) (Z.of_nat h) = Z.testbit a (Z.of_nat h).
Proof. apply Z.mod_pow2_bits_low. lia. Qed.
Lemma mod_mod_pow a h : (a mod 2 ^ Z.of_nat (S h)) mod 2 ^ Z.of_nat h = a mod 2 ^ Z.of_nat h.
Proof.
  assert (E : 2 ^ Z.of_nat (S h) = 2 ^ Z.of_nat h * 2) by (rewrite Nat2Z.inj_succ, Z.pow_succ_r by lia; ring).
  assert (0 < 2 ^ Z.of_nat h) by (apply Z.pow_pos_nonneg; lia).
  rewrite E, Z.rem_mul_r by lia. rewrite Z.mul_comm, Z_mod_plus_full. apply Z.mod_mod. lia.
Qed.

Definition range (q : Z) (n : nat) (a : Z) : Prop := q * 2 ^ Z.of_nat n <= a < q * 2 ^ Z.of_nat n + 2 ^ Z.of_nat n.
Lemma range0 q a : range q 0 a <-> a = q.
Proof. unfold range. cbn. lia. Qed.
Lemma range_S q n a : range q (S n) a <-> range (2 * q) n a \/ range (2 * q + 1) n a.
Proof.
  unfold range. rewrite Nat2Z.inj_succ, Z.pow_succ_r by lia. assert (0 < 2 ^ Z.of_nat n) by (apply Z.pow_pos_nonneg; lia). lia.
Qed.
Lemma range_disj q n a : range (2 * q) n a -> range (2 * q + 1) n a -> False.
Proof. unfold range. assert (0 < 2 ^ Z.of_nat n) by (apply Z.pow_pos_nonneg; lia). lia. Qed.
Definition enum (q : Z) (n : nat) : list Z := map (fun i => q * 2 ^ Z.of_nat n + Z.of_nat i) (seq 0 (2 ^ n)).
Lemma pow_nat n : Z.of_nat (2 ^ n) = 2 ^ Z.of_nat n.
Proof. rewrite Nat2Z.inj_pow. reflexivity. Qed.
Lemma enum_S q n : enum q (S n) = enum (2 * q) n ++ enum (2 * q + 1) n.
Proof.
  unfold enum. replace (2 ^ S n)%nat with (2 ^ n + 2 ^ n)%nat by (cbn; lia). rewrite seq_app, map_app. f_equal.
  - apply map_ext. intros i. rewrite Nat2Z.inj_succ, Z.pow_succ_r by lia. ring.
  - replace (0 + 2 ^ n)%nat with (2 ^ n + 0)%nat by lia.
    assert (E : forall k s, seq (s + k) (2 ^ n) = map (fun i => (s + i)%nat) (seq k (2 ^ n))).
    { intros k s. generalize (2 ^ n)%nat. intros m. revert k. induction m as [|m IH]; intros k; [reflexivity|]. cbn. f_equal. rewrite <- IH. f_equal. lia. }
    rewrite (E 0%nat (2 ^ n)%nat), map_map. apply map_ext. intros i. rewrite Nat2Z.inj_add, pow_nat.
    rewrite Nat2Z.inj_succ, Z.pow_succ_r by lia. ring.
Qed.
Lemma enum0 q : enum q 0 = [q].
Proof. unfold enum. cbn. f_equal. lia. Qed.
Lemma enum_range q n a : In a (enum q n) <-> range q n a.
Proof.
  revert q. induction n as [|n IH]; intros q; [rewrite enum0, range0; cbn; intuition lia|].
  rewrite enum_S, in_app_iff, !IH, range_S. reflexivity.
Qed.
Lemma enum_addresses n : enum 0 n = addresses n.
Proof. unfold enum, addresses. apply map_ext. intros i. lia. Qed.

Section Node.
  Variable H : list Z -> dig.
  Hypothesis H_ok : forall l, dig_ok (H l).
  Notation HR := (HRf H).

  Definition leaf_stmt (a : Z) (x : cell) : option su_pi :=
    leaf_prove H (ohash H (c_old x)) (ohash H (c_new x)) (if touched x then Some a else None).
  Fixpoint want (n : nat) (q : Z) (c : cells) : option su_pi :=
    match n with
    | O => leaf_stmt q (c q)
    | S n => match want n (2 * q) c, want n (2 * q + 1) c with Some l, Some r => branch_prove H l r | _, _ => None end
    end.
  Lemma want_ext n : forall q c c', (forall a, range q n a -> c a = c' a) -> want n q c = want n q c'.
  Proof.
    induction n as [|n IH]; intros q c c' E; cbn [want].
    - rewrite (E q); [reflexivity|]. apply range0. reflexivity.
    - rewrite (IH (2 * q) c c'), (IH (2 * q + 1) c c'); [reflexivity| |]; intros a R; apply E, range_S; auto.
  Qed.

  Lemma ohash_ok o : dig_ok (ohash H o). Proof. apply H_ok. Qed.
  Lemma untouched_same x : touched x = false -> c_new x = c_old x.
  Proof. unfold touched, c_new. destruct (c_st x); try discriminate. reflexivity. Qed.
  Lemma dig_eqb_refl d : dig_eqb d d = true. Proof. apply dig_eqb_iff. reflexivity. Qed.
  Lemma leaf_prove_none o : leaf_prove H o o None = Some (SuPi false dzero o o (P - 1)).
  Proof. unfold leaf_prove. rewrite dig_eqb_refl. reflexivity. Qed.
  Lemma leaf_prove_some o n a : 0 <= a < P - 1 -> leaf_prove H o n (Some a) = Some (SuPi true (H ([a] ++ delems o ++ delems n)) o n a).
  Proof.
    intros Ha. unfold leaf_prove. rewrite orb_true_r.
    replace (a <? P) with true by (symmetry; apply Z.ltb_lt; lia).
    unfold fadd. rewrite Z.mod_small by lia. replace (a + 1 =? 0) with false by (symmetry; apply Z.eqb_neq; lia). reflexivity.
  Qed.
  Definition leaf_res (a : Z) (x : cell) : su_pi :=
    if touched x then SuPi true (H ([a] ++ delems (ohash H (c_old x)) ++ delems (ohash H (c_new x)))) (ohash H (c_old x)) (ohash H (c_new x)) a
    else SuPi false dzero (ohash H (c_old x)) (ohash H (c_new x)) (P - 1).
  Lemma leaf_stmt_eq a x : (touched x = true -> 0 <= a < P - 1) -> leaf_stmt a x = Some (leaf_res a x).
  Proof.
    intros Ha. unfold leaf_stmt, leaf_res. destruct (touched x) eqn:E; [apply leaf_prove_some, Ha; reflexivity|].
    rewrite (untouched_same _ E). apply leaf_prove_none.
  Qed.

  (** addresses stated by proofs *)
  Definition weak (q : Z) (p : su_pi) : Prop := su_wf p /\ (su_sp p = true -> su_addr p = q mod P) /\ (su_sp p = false -> su_sum p = dzero).
  Lemma dadd_0_l x : dig_ok x -> dadd dzero x = x.
  Proof. destruct x. unfold dig_ok, canon, dadd, fadd. cbn. intros (A & B & C & D). rewrite !Z.mod_small by lia. reflexivity. Qed.
  Lemma dadd_0_r x : dig_ok x -> dadd x dzero = x.
  Proof. destruct x. unfold dig_ok, canon, dadd, fadd. cbn. intros (A & B & C & D). rewrite !Z.add_0_r, !Z.mod_small by lia. reflexivity. Qed.
  Lemma dadd_ok x y : dig_ok (dadd x y).
  Proof. unfold dig_ok, dadd, fadd, canon. cbn. repeat split; apply Z.mod_pos_bound, P_pos. Qed.
  Lemma branch_prove_ok q l r : weak (2 * q) l -> weak (2 * q + 1) r -> exists p, branch_prove H l r = Some p /\ weak q p /\ su_branch HR l r p /\ su_sp p = su_sp l || su_sp r.
  Proof.
    intros (Wl & Al & Sl) (Wr & Ar & Sr). unfold branch_prove.
    assert (G : negb (su_sp l && su_sp r) || (fhalf (su_addr l) =? fhalf ((su_addr r - 1) mod P)) = true).
    { destruct (su_sp l) eqn:El, (su_sp r) eqn:Er; try reflexivity. rewrite Al, Ar by reflexivity. rewrite fhalf_double, fhalf_double', Z.eqb_refl. reflexivity. }
    rewrite G. eexists. split; [reflexivity|].
    assert (Cf : forall x, canon (fhalf x)) by (intros x; unfold fhalf, canon; apply Z.mod_pos_bound, P_pos).
    split; [|split; [|reflexivity]].
    - split; [|split].
      + split; [cbn; unfold hof; destruct (su_sp l && su_sp r); [apply H_ok|apply dadd_ok]|]. split; [apply H_ok|]. split; [apply H_ok|].
        cbn. destruct (su_sp l); cbn; [apply Cf|]. destruct (su_sp r); [apply Cf|apply Wl].
      + cbn. intros E. rewrite E. destruct (su_sp l) eqn:El; [rewrite Al by reflexivity; apply fhalf_double|].
        cbn in E. rewrite Ar by exact E. apply fhalf_double'.
      + cbn. intros E. apply orb_false_iff in E as [E1 E2]. unfold hof. rewrite E1, E2. cbn. rewrite Sl, Sr by assumption. reflexivity.
    - unfold su_branch. cbn [su_sp su_sum su_old su_new su_addr].
      split; [reflexivity|]. split; [eexists; split; reflexivity|]. split; [eexists; split; reflexivity|]. split; [eexists; split; reflexivity|].
      exists (fhalf (su_addr l)), (fhalf ((su_addr r - 1) mod P)). split; [apply fhalf_ok, Wl|]. split; [apply fhalf_ok; unfold canon; apply Z.mod_pos_bound, P_pos|].
      split; [|reflexivity]. intros E. rewrite E in G. cbn in G. apply Z.eqb_eq, G.
  Qed.

  Definition okrange (q : Z) (n : nat) (c : cells) : Prop := forall a, range q n a -> touched (c a) = true -> 0 <= a < P - 1.
  Lemma okrange_S q n c : okrange q (S n) c -> okrange (2 * q) n c /\ okrange (2 * q + 1) n c.
  Proof. intros K. split; intros a R; apply K, range_S; auto. Qed.
  Lemma leaf_res_weak a x : (touched x = true -> 0 <= a < P - 1) -> weak a (leaf_res a x).
  Proof.
    intros Ha. unfold leaf_res. destruct (touched x); (split; [|split]); try discriminate; try reflexivity.
    - split; [apply H_ok|]. split; [apply H_ok|]. split; [apply H_ok|]. specialize (Ha eq_refl). unfold canon. cbn. lia.
    - intros _. cbn. symmetry. apply Z.mod_small. specialize (Ha eq_refl). lia.
    - split; [apply dzero_ok|]. split; [apply H_ok|]. split; [apply H_ok|]. unfold canon. cbn. vm_compute. split; discriminate || reflexivity.
  Qed.
  Lemma want_spec n : forall q c, okrange q n c -> exists p t ts, want n q c = Some p /\ su_acc HR n p /\ weak q p /\
    leaves t = map (cell_leaf H c) (enum q n) /\ StateTree HR n t (su_old p) (su_new p) /\
    ORoot (sleaf_hash HR) (pair_hash HR) ts (su_sp p) (su_sum p) /\ oleaves ts = List.filter sl_touched (map (cell_leaf H c) (enum q n)).
  Proof.
    induction n as [|n IH]; intros q c K.
    - assert (Kq : touched (c q) = true -> 0 <= q < P - 1) by (apply K, range0; reflexivity).
      exists (leaf_res q (c q)), (BLeaf (cell_leaf H c q)), (if touched (c q) then Some (BLeaf (cell_leaf H c q)) else None).
      cbn [want]. split; [apply leaf_stmt_eq, Kq|].
      rewrite enum0. cbn [map].
      pose proof (leaf_res_weak q (c q) Kq) as W.
      split. { split; [apply W|]. unfold leaf_res, su_leaf, at_least_one_true, summarize, HRf. destruct (touched (c q)) eqn:E; cbn [su_sp su_sum su_old su_new su_addr].
        - rewrite !orb_true_r. split; [reflexivity|]. split; [|split; [reflexivity|eexists; split; reflexivity]].
          specialize (Kq eq_refl). unfold fadd. rewrite Z.mod_small by lia. symmetry. apply negb_true_iff, Z.eqb_neq. lia.
        - split; [reflexivity|]. split; [reflexivity|]. split; [rewrite orb_false_r, (untouched_same _ E); apply dig_eqb_refl|]. eexists. split; reflexivity. }
      split; [exact W|]. split; [reflexivity|]. split.
      { split; [exact I|]. split; [|split].
        - unfold leaf_res. destruct (touched (c q)); constructor; reflexivity.
        - unfold leaf_res. destruct (touched (c q)); constructor; reflexivity.
        - intros s [<-|[]]. unfold cell_leaf. cbn. intros E. rewrite (untouched_same _ E). reflexivity. }
      unfold cell_leaf, leaf_res. cbn. destruct (touched (c q)) eqn:E; cbn; (split; [split|]); try reflexivity. constructor. reflexivity.
    - destruct (okrange_S _ _ _ K) as [Kl Kr].
      destruct (IH _ _ Kl) as (pl & tl & tsl & El & Al & Wl & Ll & (Pl & Ol & Nl & Ul) & Rl & Fl).
      destruct (IH _ _ Kr) as (pr & tr & tsr & Er & Ar & Wr & Lr & (Pr & Or & Nr & Ur) & Rr & Fr).
      destruct (branch_prove_ok q pl pr Wl Wr) as (p & Ep & Wp & B & Esp).
      exists p, (BNode tl tr), (ojoin tsl tsr). cbn [want]. rewrite El, Er. split; [exact Ep|].
      split; [cbn; exists pl, pr; repeat (split; [assumption|]); split; [apply Wp|exact B]|]. split; [exact Wp|].
      rewrite enum_S, map_app. split; [cbn; rewrite Ll, Lr; reflexivity|].
      destruct B as (B1 & B2 & (co & Po & Eo) & (cn & Pn & En) & _).
      split. { split; [split; assumption|]. split; [cbn [tmap]; rewrite Eo; econstructor; eassumption|]. split; [cbn [tmap]; rewrite En; econstructor; eassumption|].
        intros s I. cbn in I. apply in_app_or in I as [I|I]; [apply Ul|apply Ur]; exact I. }
      split; [rewrite B1; exact (hof_root HR (sleaf_hash HR) _ _ _ _ _ _ _ (proj1 (proj1 Wl)) (proj1 (proj1 Wr)) Rl Rr B2)|].
      rewrite oleaves_ojoin, Fl, Fr, List.filter_app. reflexivity.
  Qed.

  Definition empty_cell : cell := Cell None Untouched.
  Lemma empty_want n : forall q c, (forall a, range q n a -> c a = empty_cell) -> want n q c = empty_proof H n.
  Proof.
    induction n as [|n IH]; intros q c E; cbn [want empty_proof].
    - rewrite (E q) by (apply range0; reflexivity). reflexivity.
    - rewrite (IH (2 * q) c), (IH (2 * q + 1) c) by (intros a R; apply E, range_S; auto). destruct (empty_proof H n); reflexivity.
  Qed.

  (** ** The tree represents the cells. *)
  Definition kind_of (x : cell) : option leaf_kind :=
    match c_old x, c_st x with
    | Some o, Untouched => Some (KUnused o) | Some o, Seen => Some (KRead o) | Some o, Removed => Some (KDeleted o) | Some o, Put n => Some (KUpdated o n)
    | None, Untouched => None | None, Seen => Some KReadEmpty | None, Removed => Some KDeleteEmpty | None, Put n => Some (KCreated n)
    end.
  (** [st]: the proofs inside are up to date *)
  Fixpoint rel (st : Prop) (c : cells) (n : nat) (q : Z) (t : stree) : Prop :=
    match t with
    | SEmpty => forall a, range q n a -> c a = empty_cell
    | SLf p k => n = O /\ kind_of (c q) = Some k /\ p = leaf_res q (c q)
    | SBr h p l r => n = S h /\ rel st c h (2 * q) l /\ rel st c h (2 * q + 1) r /\ weak q p /\ (st -> want n q c = Some p)
    end.
  Lemma rel_ext (st st' : Prop) c c' : (st' -> st) -> forall t n q, (forall a, range q n a -> c a = c' a) -> rel st c n q t -> rel st' c' n q t.
  Proof.
    intros Hst. induction t as [|h p l IHl r IHr|p k]; intros n q E; cbn [rel].
    - intros R a Ra. rewrite <- E by exact Ra. apply R, Ra.
    - intros (-> & Rl & Rr & W & S). split; [reflexivity|].
      split; [eapply IHl; [|exact Rl]; intros a Ra; apply E, range_S; auto|]. split; [eapply IHr; [|exact Rr]; intros a Ra; apply E, range_S; auto|].
      split; [exact W|]. intros X. rewrite <- (want_ext _ _ _ _ E). apply S, Hst, X.
    - intros (-> & A & B). rewrite <- (E q) by (apply range0; reflexivity). auto.
  Qed.
  Lemma child_proof_ok st c h q t : okrange q h c -> rel st c h q t -> exists p, child_proof H h t = Some p /\ weak q p /\ (st -> want h q c = Some p).
  Proof.
    intros K. destruct t as [|h' p l r|p k]; cbn [rel].
    - intros E. destruct (want_spec h q c K) as (p & _ & _ & Ew & _ & W & _). exists p. rewrite (empty_want _ _ _ E) in Ew.
      split; [destruct h; exact Ew|]. split; [exact W|]. intros _. rewrite (empty_want _ _ _ E). exact Ew.
    - intros (-> & _ & _ & W & S). exists p. auto.
    - intros (-> & Ek & ->). exists (leaf_res q (c q)). split; [reflexivity|].
      assert (Kq : touched (c q) = true -> 0 <= q < P - 1) by (apply K, range0; reflexivity).
      split; [apply leaf_res_weak, Kq|]. intros _. cbn. apply leaf_stmt_eq, Kq.
  Qed.
  Lemma recalc_ok st c h q l r : okrange q (S h) c -> rel st c h (2 * q) l -> rel st c h (2 * q + 1) r ->
    exists p, recalc H h l r = Some (SBr h p l r) /\ rel st c (S h) q (SBr h p l r).
  Proof.
    intros K Rl Rr. destruct (okrange_S _ _ _ K) as [Kl Kr].
    destruct (child_proof_ok _ _ _ _ _ Kl Rl) as (pl & El & Wl & Sl). destruct (child_proof_ok _ _ _ _ _ Kr Rr) as (pr & Er & Wr & Sr).
    destruct (branch_prove_ok q pl pr Wl Wr) as (p & Ep & Wp & _). exists p. unfold recalc. rewrite El, Er, Ep. split; [reflexivity|].
    cbn [rel]. split; [reflexivity|]. split; [exact Rl|]. split; [exact Rr|]. split; [exact Wp|]. intros X. cbn [want]. rewrite (Sl X), (Sr X). exact Ep.
  Qed.

  Lemma upd_same c a x : upd c a x a = x. Proof. unfold upd. rewrite Z.eqb_refl. reflexivity. Qed.
  Lemma upd_other c a x b : b <> a -> upd c a x b = c b. Proof. intros N. unfold upd. apply Z.eqb_neq in N. rewrite N. reflexivity. Qed.
  Lemma step_touches x op x' : cell_step x op = Some x' -> touched x' = true.
  Proof.
    unfold cell_step, touched. destruct op as [o| |]; destruct (c_st x) as [| | |o'] eqn:E; try discriminate; try (intros E'; injection E' as <-; cbn; rewrite ?E; reflexivity).
    - case_bool_decide; [|discriminate]. intros E'. injection E' as <-. rewrite E. reflexivity.
    - destruct (c_old x); intros E'; injection E' as <-; cbn; rewrite ?E; reflexivity.
  Qed.

  (** a new leaf *)
  Lemma create_leaf_ok a op : 0 <= a < P - 1 -> exists x k, cell_step empty_cell op = Some x /\
    create_leaf H a op = Some (leaf_res a x, k) /\ kind_of x = Some k.
  Proof.
    intros Ha. destruct op as [o| |]; cbn [cell_step empty_cell c_st c_old]; eexists; eexists; (split; [reflexivity|]); unfold create_leaf, being_created, read_empty_leaf, delete_empty_leaf, mk_leaf;
      (split; [rewrite leaf_prove_some by exact Ha; reflexivity|reflexivity]).
  Qed.
  Lemma apply_leaf_ok a x k op : 0 <= a < P - 1 -> kind_of x = Some k ->
    match cell_step x op with
    | Some x' => exists k' rc, apply_leaf H (leaf_res a x) k a op = Some (leaf_res a x', k', rc) /\ kind_of x' = Some k' /\ (rc = false -> x' = x)
    | None => apply_leaf H (leaf_res a x) k a op = None
    end.
  Proof.
    intros Ha. destruct x as [[o|] [| | |n]]; cbn [kind_of c_old c_st]; intros E; try discriminate; injection E as <-;
      destruct op as [m| |]; cbn [cell_step c_st c_old apply_leaf]; unfold being_created, being_deleted, being_read, being_updated, mk_leaf; cbn [leaf_res touched c_st su_old];
      try reflexivity;
      try (case_bool_decide; [subst|]); try reflexivity;
      rewrite ?leaf_prove_some by exact Ha;
      eexists; eexists; (split; [reflexivity|]); (split; [reflexivity|]); try discriminate; reflexivity.
  Qed.

  Lemma create_branch_ok st c op h : forall q a, range q (S h) a -> 0 <= a < P - 1 -> (forall b, range q (S h) b -> c b = empty_cell) ->
    exists x t, cell_step empty_cell op = Some x /\ create_branch H h (a mod 2 ^ Z.of_nat (S h)) a op = Some t /\ rel st (upd c a x) (S h) q t.
  Proof.
    induction h as [|h IH]; intros q a Ra Ha E; cbn [create_branch]; rewrite path_next_eq; cbn [fst snd]; rewrite testbit_mod.
    - destruct (create_leaf_ok a op Ha) as (x & k & Es & Ec & Ek). rewrite Ec. exists x. cbn [child_proof].
      pose proof (testbit_split q 0 a Ra) as R'. cbn zeta in R'. set (d := Z.testbit a (Z.of_nat 0)) in *.
      assert (Kx : touched x = true -> 0 <= a < P - 1) by (intros _; exact Ha).
      assert (Kc : okrange q 1 (upd c a x)).
      { intros b Rb Tb. destruct (Z.eq_dec b a) as [->|N]; [exact Ha|]. rewrite upd_other in Tb by exact N. rewrite E in Tb by exact Rb. discriminate. }
      assert (Rl : rel st (upd c a x) 0 (2 * q) (if d then SEmpty else SLf (leaf_res a x) k)).
      { destruct d; cbn [rel].
        - intros b Rb. rewrite upd_other; [apply E, range_S; auto|]. intros ->. apply (range_disj q 0 a); [exact Rb|exact R'].
        - assert (a = 2 * q) by (apply range0; exact R'). subst a. rewrite upd_same. auto. }
      assert (Rr : rel st (upd c a x) 0 (2 * q + 1) (if d then SLf (leaf_res a x) k else SEmpty)).
      { destruct d; cbn [rel].
        - assert (a = 2 * q + 1) by (apply range0; exact R'). subst a. rewrite upd_same. auto.
        - intros b Rb. rewrite upd_other; [apply E, range_S; auto|]. intros ->. apply (range_disj q 0 a); [exact R'|exact Rb]. }
      destruct (recalc_ok st _ 0 q _ _ Kc Rl Rr) as (p & Er & R). unfold recalc in Er.
      destruct d; cbn [child_proof] in Er; destruct (empty_proof H 0) as [e|]; try discriminate.
      + destruct (branch_prove H e (leaf_res a x)) as [q'|]; [|discriminate]. injection Er as <-. exists (SBr 0 q' SEmpty (SLf (leaf_res a x) k)). auto.
      + destruct (branch_prove H (leaf_res a x) e) as [q'|]; [|discriminate]. injection Er as <-. exists (SBr 0 q' (SLf (leaf_res a x) k) SEmpty). auto.
    - pose proof (testbit_split q (S h) a Ra) as R'. cbn zeta in R'. set (d := Z.testbit a (Z.of_nat (S h))) in *.
      rewrite mod_mod_pow.
      destruct (IH (if d then 2 * q + 1 else 2 * q) a) as (x & t & Es & Et & Rt); [destruct d; exact R'|exact Ha|intros b Rb; apply E, range_S; destruct d; auto|].
      exists x. rewrite Et.
      assert (Kc : okrange q (S (S h)) (upd c a x)).
      { intros b Rb Tb. destruct (Z.eq_dec b a) as [->|N]; [exact Ha|]. rewrite upd_other in Tb by exact N. rewrite E in Tb by exact Rb. discriminate. }
      assert (Rl : rel st (upd c a x) (S h) (2 * q) (if d then SEmpty else t)).
      { destruct d; [|exact Rt]. cbn [rel]. intros b Rb. rewrite upd_other; [apply E, range_S; auto|]. intros ->. apply (range_disj q (S h) a); [exact Rb|exact R']. }
      assert (Rr : rel st (upd c a x) (S h) (2 * q + 1) (if d then t else SEmpty)).
      { destruct d; [exact Rt|]. cbn [rel]. intros b Rb. rewrite upd_other; [apply E, range_S; auto|]. intros ->. apply (range_disj q (S h) a); [exact R'|exact Rb]. }
      destruct (recalc_ok st _ (S h) q _ _ Kc Rl Rr) as (p & Er & R). unfold recalc in Er.
      replace (child_proof H (S h) SEmpty) with (empty_proof H (S h)) in Er by reflexivity.
      destruct d.
      + change (child_proof H (S h) SEmpty) with (empty_proof H (S h)) in Er. destruct (empty_proof H (S h)) as [e|]; [|discriminate].
        destruct (child_proof H (S h) t) as [pt|]; [|discriminate]. destruct (branch_prove H e pt) as [q'|]; [|discriminate]. injection Er as <-. exists (SBr (S h) q' SEmpty t). auto.
      + change (child_proof H (S h) SEmpty) with (empty_proof H (S h)) in Er. destruct (child_proof H (S h) t) as [pt|]; [|discriminate].
        destruct (empty_proof H (S h)) as [e|]; [|discriminate]. destruct (branch_prove H pt e) as [q'|]; [|discriminate]. injection Er as <-. exists (SBr (S h) q' t SEmpty). auto.
  Qed.

  Lemma apply_helper_ok st op a c (Ha : 0 <= a < P - 1) : forall t h q, okrange q (S h) c -> rel st c (S h) q t -> t <> SEmpty -> range q (S h) a ->
    let pn := path_next (h, a mod 2 ^ Z.of_nat (S h)) in
    match cell_step (c a) op with
    | Some x => exists t' rc, apply_helper H t a (fst pn) (snd pn) op = Some (t', rc) /\ rel st (upd c a x) (S h) q t' /\ t' <> SEmpty /\ (rc = false -> x = c a)
    | None => apply_helper H t a (fst pn) (snd pn) op = None
    end.
  Proof.
    induction t as [|h' p l IHl r IHr|p k]; intros h q K R NE Ra; [congruence| |destruct R as (R & _); discriminate].
    cbn zeta. rewrite path_next_eq, testbit_mod. cbn [fst snd].
    destruct R as (Eh & Rl & Rr & Wp & Sp). injection Eh as <-.
    pose proof (testbit_split q h a Ra) as R'. cbn zeta in R'.
    cbn [apply_helper]. set (d := Z.testbit a (Z.of_nat h)) in *.
    destruct (okrange_S _ _ _ K) as [Kl Kr].
    (* the child on the path *)
    assert (Rc : rel st c h (if d then 2 * q + 1 else 2 * q) (if d then r else l)) by (destruct d; assumption).
    assert (KR : forall x, cell_step (c a) op = Some x -> okrange q (S h) (upd c a x)).
    { intros x _ b Rb Tb. destruct (Z.eq_dec b a) as [->|N]; [exact Ha|]. rewrite upd_other in Tb by exact N. apply K; assumption. }
    set (res := match (if d then r else l) with SEmpty => _ | SBr _ _ _ _ => _ | SLf _ _ => _ end).
    assert (G : match cell_step (c a) op with
      | Some x => exists t' rc, res = Some (t', rc) /\ rel st (upd c a x) h (if d then 2 * q + 1 else 2 * q) t' /\ (rc = false -> x = c a)
      | None => res = None end).
    { unfold res. clear res.
      assert (Re : (if d then r else l) = SEmpty -> match h with
          | O => True | S h1 => True end -> c a = empty_cell).
      { intros E _. rewrite E in Rc. apply Rc. destruct d; exact R'. }
      destruct (if d then r else l) as [|h2 p2 l2 r2|p2 k2] eqn:Ec.
      - specialize (Re eq_refl). rewrite Re by (destruct h; exact I).
        destruct h as [|h1].
        + destruct (create_leaf_ok a op Ha) as (x & k & Es & El & Ek). rewrite Es, El. exists (SLf (leaf_res a x) k), true. split; [reflexivity|].
          split; [|discriminate]. cbn [rel]. assert (a = if d then 2 * q + 1 else 2 * q) as <- by (destruct d; apply range0; exact R'). rewrite upd_same. auto.
        + rewrite mod_mod_pow. destruct (create_branch_ok st c op h1 (if d then 2 * q + 1 else 2 * q) a) as (x & t & Es & Et & Rt); [destruct d; exact R'|exact Ha|exact Rc|].
          rewrite Es, Et. exists t, true. split; [reflexivity|]. split; [exact Rt|discriminate].
      - cbn [rel] in Rc. destruct Rc as (Eh2 & Rc). subst h. rewrite mod_mod_pow.
        assert (IHc : let pn := path_next (h2, a mod 2 ^ Z.of_nat (S h2)) in
          match cell_step (c a) op with
          | Some x => exists t' rc, apply_helper H (if d then r else l) a (fst pn) (snd pn) op = Some (t', rc) /\ rel st (upd c a x) (S h2) (if d then 2 * q + 1 else 2 * q) t' /\ t' <> SEmpty /\ (rc = false -> x = c a)
          | None => apply_helper H (if d then r else l) a (fst pn) (snd pn) op = None
          end).
        { destruct d.
          - apply IHr; [exact Kr|exact Rr|intros ->; discriminate|exact R'].
          - apply IHl; [exact Kl|exact Rl|intros ->; discriminate|exact R']. }
        cbn zeta in IHc. rewrite Ec in IHc.
        destruct (path_next (h2, a mod 2 ^ Z.of_nat (S h2))) as [pp dd]. cbn [fst snd] in IHc.
        destruct (cell_step (c a) op) as [x|]; [|exact IHc]. destruct IHc as (t' & rc & E1 & E2 & _ & E3). exists t', rc. auto.
      - cbn [rel] in Rc. destruct Rc as (-> & Ek & ->).
        assert (Ea : (if d then 2 * q + 1 else 2 * q) = a) by (destruct d; symmetry; apply range0; exact R'). rewrite Ea in *.
        pose proof (apply_leaf_ok a (c a) k2 op Ha Ek) as L. destruct (cell_step (c a) op) as [x|].
        + destruct L as (k' & rc & El & Ek' & Erc). rewrite El. exists (SLf (leaf_res a x) k'), rc. split; [reflexivity|]. cbn [rel]. rewrite upd_same. auto.
        + rewrite L. reflexivity. }
    clearbody res. destruct (cell_step (c a) op) as [x|] eqn:Es; [|rewrite G; reflexivity].
    destruct G as (t' & rc & -> & Rt & Erc).
    assert (RL : rel st (upd c a x) h (2 * q) (if d then l else t')).
    { destruct d; [|exact Rt]. eapply rel_ext; [|intros b Rb; symmetry; apply upd_other|exact Rl]; [auto|]. intros ->. apply (range_disj q h a); [exact Rb|exact R']. }
    assert (RR : rel st (upd c a x) h (2 * q + 1) (if d then t' else r)).
    { destruct d; [exact Rt|]. eapply rel_ext; [|intros b Rb; symmetry; apply upd_other|exact Rr]; [auto|]. intros ->. apply (range_disj q h a); [exact R'|exact Rb]. }
    destruct rc.
    - destruct (recalc_ok st _ h q _ _ (KR x eq_refl) RL RR) as (p' & Er & Rp). rewrite Er. eexists. exists true. split; [reflexivity|]. split; [exact Rp|]. split; [discriminate|discriminate].
    - eexists. exists false. split; [reflexivity|]. split; [|split; [discriminate|exact Erc]]. cbn [rel]. split; [reflexivity|]. split; [exact RL|]. split; [exact RR|]. split; [exact Wp|].
      intros X. rewrite <- (Sp X). apply want_ext. intros b Rb. destruct (Z.eq_dec b a) as [->|N]; [rewrite upd_same; apply Erc; reflexivity|apply upd_other, N].
  Qed.

  (** ** finalize *)
  Definition keeps (q : Z) (n : nat) (c : cells) : Prop := forall a, range q n a -> touched (c a) = true -> c_new (c a) <> None.
  Definition commit (c : cells) : cells := fun a => cell_commit (c a).
  Lemma commit_untouched x : touched x = false -> cell_commit x = x.
  Proof. destruct x as [o [| | |n]]; try discriminate. reflexivity. Qed.
  Lemma okrange_commit q n c : okrange q n (commit c). Proof. intros a _ E. discriminate. Qed.
  Lemma finalize_ok (st K : Prop) c : (K -> forall a, touched (c a) = true -> c_new (c a) <> None) -> forall t n q, okrange q n c -> rel st c n q t ->
    exists t' o, finalize_tree H t = Some (t', o) /\
      rel (st /\ K) (commit c) n q (match o with FPrune => SEmpty | _ => t' end) /\
      (o = FPrune -> K -> forall a, range q n a -> c a = empty_cell) /\
      (o = FNoOp -> K -> forall a, range q n a -> touched (c a) = false) /\
      (forall h p l r, t = SBr h p l r -> exists p' l' r', t' = SBr h p' l' r' /\ rel (st /\ K) (commit c) n q t').
  Proof.
    intros HK. induction t as [|h p l IHl r IHr|p k]; intros n q Kr; cbn [rel finalize_tree].
    - intros E. exists SEmpty, FPrune. split; [reflexivity|]. split; [cbn [rel]; intros a Ra; unfold commit; rewrite (E a Ra); reflexivity|].
      split; [intros _ _; exact E|]. split; [discriminate|]. discriminate.
    - intros (-> & Rl & Rr & Wp & Sp). destruct (okrange_S _ _ _ Kr) as [Kl0 Kr0].
      destruct (IHl _ _ Kl0 Rl) as (l' & lo & El & Fl & Pl & Nl & _). destruct (IHr _ _ Kr0 Rr) as (r' & ro & Er & Fr & Pr & Nr & _).
      rewrite El, Er. set (l2 := match lo with FPrune => SEmpty | _ => l' end) in *. set (r2 := match ro with FPrune => SEmpty | _ => r' end) in *.
      destruct (recalc_ok (st /\ K) (commit c) h q l2 r2 (okrange_commit _ _ _) Fl Fr) as (p' & Erc & Rp).
      assert (Un : fin_add lo ro = FNoOp \/ fin_add lo ro = FPrune -> K -> forall a, range q (S h) a -> touched (c a) = false).
      { intros O HKK a Ra. apply range_S in Ra as [Ra|Ra].
        - destruct lo; [rewrite (Pl eq_refl HKK a Ra); reflexivity|destruct O, ro; discriminate|apply Nl; auto].
        - destruct ro; [rewrite (Pr eq_refl HKK a Ra); reflexivity|destruct O, lo; discriminate|apply Nr; auto]. }
      assert (Stale : fin_add lo ro = FNoOp \/ fin_add lo ro = FPrune -> rel (st /\ K) (commit c) (S h) q (SBr h p l2 r2)).
      { intros O. cbn [rel]. split; [reflexivity|]. split; [exact Fl|]. split; [exact Fr|]. split; [exact Wp|]. intros [X HKK]. rewrite <- (Sp X). apply want_ext.
        intros a Ra. apply commit_untouched. apply Un; assumption. }
      destruct (fin_add lo ro) eqn:Eo.
      + exists (SBr h p l2 r2), FPrune. split; [reflexivity|]. assert (lo = FPrune /\ ro = FPrune) as [-> ->] by (destruct lo, ro; try discriminate; auto).
        split; [cbn [rel]; intros a Ra; apply range_S in Ra as [Ra|Ra]; [apply Fl, Ra|apply Fr, Ra]|].
        split; [intros _ HKK a Ra; apply range_S in Ra as [Ra|Ra]; auto|]. split; [discriminate|].
        intros h0 p0 l0 r0 E. injection E as <- <- <- <-. eexists. eexists. eexists. split; [reflexivity|]. apply Stale. auto.
      + rewrite Erc. exists (SBr h p' l2 r2), FRecalc. split; [reflexivity|]. split; [exact Rp|]. split; [discriminate|]. split; [discriminate|].
        intros h0 p0 l0 r0 E. injection E as <- <- <- <-. eexists. eexists. eexists. split; [reflexivity|exact Rp].
      + exists (SBr h p l2 r2), FNoOp. split; [reflexivity|]. split; [apply Stale; auto|]. split; [discriminate|]. split; [intros _; apply Un; auto|].
        intros h0 p0 l0 r0 E. injection E as <- <- <- <-. eexists. eexists. eexists. split; [reflexivity|]. apply Stale. auto.
    - intros (-> & Ek & ->).
      assert (Cm : forall o, c_new (c q) = Some o -> rel (st /\ K) (commit c) 0 q (SLf (SuPi false dzero (ohash H (Some o)) (ohash H (Some o)) (P - 1)) (KUnused o))).
      { intros o E. cbn [rel]. unfold commit, cell_commit. rewrite E. auto. }
      assert (Pr : c_new (c q) = None -> rel (st /\ K) (commit c) 0 q SEmpty).
      { intros E. cbn [rel]. intros a Ra. apply range0 in Ra. subst a. unfold commit, cell_commit. rewrite E. reflexivity. }
      assert (PK : c_new (c q) = None -> touched (c q) = true -> K -> forall a, range q 0 a -> c a = empty_cell).
      { intros E T HKK. exfalso. exact (HK HKK q T E). }
      destruct (c q) as [oo ss] eqn:Ec; destruct oo as [o|], ss as [| | |n]; cbn [kind_of c_old c_st] in Ek; try discriminate; injection Ek as <-; cbn [finalize_leaf leaf_res touched c_st su_new su_old];
        rewrite ?leaf_prove_none; eexists; eexists; (split; [reflexivity|]);
        (split; [first [apply Cm; reflexivity | apply Pr; reflexivity] | (split; [try discriminate; intros _; apply PK; reflexivity | split; [try discriminate | discriminate]])]).
      all: intros _ _ a Ra; apply range0 in Ra; subst a; rewrite Ec; reflexivity.
  Qed.

  (** ** get_state *)
  Lemma kind_state_of x k : kind_of x = Some k -> kind_state k = (c_old x, c_new x).
  Proof. destruct x as [[o|] [| | |n]]; cbn; intros E; try discriminate; injection E as <-; reflexivity. Qed.
  Lemma get_helper_ok st c a : forall t h q, rel st c (S h) q t -> t <> SEmpty -> range q (S h) a ->
    let pn := path_next (h, a mod 2 ^ Z.of_nat (S h)) in get_helper t (fst pn) (snd pn) = Some (c_old (c a), c_new (c a)).
  Proof.
    induction t as [|h' p l IHl r IHr|p k]; intros h q R NE Ra; [congruence| |destruct R as (R & _); discriminate].
    cbn zeta. rewrite path_next_eq, testbit_mod. cbn [fst snd]. destruct R as (Eh & Rl & Rr & _). injection Eh as <-.
    pose proof (testbit_split q h a Ra) as R'. cbn zeta in R'. cbn [get_helper]. set (d := Z.testbit a (Z.of_nat h)) in *.
    assert (Rc : rel st c h (if d then 2 * q + 1 else 2 * q) (if d then r else l)) by (destruct d; assumption).
    destruct (if d then r else l) as [|h2 p2 l2 r2|p2 k2] eqn:Ec.
    - rewrite (Rc a) by (destruct d; exact R'). reflexivity.
    - cbn [rel] in Rc. destruct Rc as (Eh2 & Rc). subst h. rewrite mod_mod_pow.
      assert (IHc : let pn := path_next (h2, a mod 2 ^ Z.of_nat (S h2)) in get_helper (if d then r else l) (fst pn) (snd pn) = Some (c_old (c a), c_new (c a))).
      { destruct d; [eapply IHr; [exact Rr|intros ->; discriminate|exact R']|eapply IHl; [exact Rl|intros ->; discriminate|exact R']]. }
      cbn zeta in IHc. rewrite Ec in IHc. destruct (path_next (h2, a mod 2 ^ Z.of_nat (S h2))) as [pp dd]. exact IHc.
    - cbn [rel] in Rc. destruct Rc as (-> & Ek & _). f_equal.
      assert (Ea : (if d then 2 * q + 1 else 2 * q) = a) by (destruct d; symmetry; apply range0; exact R'). rewrite Ea in Ek. apply kind_state_of, Ek.
  Qed.

  (** ** Histories *)
  Lemma low_app l l' : low (l ++ l') <-> low l /\ low l'.
  Proof. induction l as [|[a op|] l IH]; cbn; [tauto| |]; rewrite IH; tauto. Qed.
  Lemma run_actions_app t l l' : run_actions H t (l ++ l') = match run_actions H t l with Some t' => run_actions H t' l' | None => None end.
  Proof. revert t. induction l as [|a l IH]; intros t; [reflexivity|]. cbn. destruct (run_action H t a); [apply IH|reflexivity]. Qed.
  Lemma run_state_app depth l l' : run_state H depth (l ++ l') = match run_state H depth l with Some t' => run_actions H t' l' | None => None end.
  Proof. unfold run_state. destruct (state_new H depth); [apply run_actions_app|reflexivity]. Qed.
  Lemma root_range depth a : 0 <= a < 2 ^ Z.of_nat (S depth) <-> range 0 (S depth) a.
  Proof. unfold range. lia. Qed.

  Lemma apply_operation_ok st c depth t a op : rel st c (S depth) 0 t -> okrange 0 (S depth) c -> (exists p l r, t = SBr depth p l r) ->
    0 <= a < 2 ^ Z.of_nat (S depth) -> a < P - 1 ->
    match cell_step (c a) op with
    | Some x => exists t', apply_operation H t a op = Some t' /\ rel st (upd c a x) (S depth) 0 t' /\ (exists p l r, t' = SBr depth p l r)
    | None => apply_operation H t a op = None
    end.
  Proof.
    intros R K (p & l & r & ->) Ra La. unfold apply_operation.
    replace ((0 <=? a) && (a <? 2 ^ (Z.of_nat depth + 1))) with true
      by (symmetry; apply andb_true_intro; split; [apply Z.leb_le; lia|apply Z.ltb_lt; rewrite Nat2Z.inj_succ in Ra; unfold Z.succ in Ra; lia]).
    pose proof (apply_helper_ok st op a c ltac:(lia) (SBr depth p l r) depth 0 K R ltac:(discriminate) ltac:(apply root_range; exact Ra)) as A. cbn zeta in A.
    rewrite (Z.mod_small a) in A by exact Ra. destruct (path_next (depth, a)) as [pp dd]. cbn [fst snd] in A.
    destruct (cell_step (c a) op) as [x|]; [|rewrite A; reflexivity]. destruct A as (t' & rc & -> & R' & NE & _). exists t'. split; [reflexivity|]. split; [exact R'|].
    destruct t' as [|h' p' l' r'|p' k']; [congruence| |destruct R' as [R' _]; discriminate]. destruct R' as (E & _). injection E as <-. eauto.
  Qed.
  Lemma history_rel depth l c : History depth l c -> low l -> exists t, run_state H depth l = Some t /\ rel (kept depth l) c (S depth) 0 t /\
    okrange 0 (S depth) c /\ (exists p l r, t = SBr depth p l r).
  Proof.
    induction 1 as [|l c a op x Hl IH Ra Es|l c Hl IH].
    - intros _. destruct (want_spec (S depth) 0 no_cells) as (p & _ & _ & Ew & _ & W & _); [intros a _ E; discriminate|].
      exists (SBr depth p SEmpty SEmpty). unfold run_state, state_new. pose proof Ew as Ee. rewrite (empty_want _ _ _ ltac:(intros a _; reflexivity)) in Ee. rewrite Ee. cbn [run_actions].
      split; [reflexivity|]. split; [cbn [rel]; split; [reflexivity|]; split; [intros a _; reflexivity|]; split; [intros a _; reflexivity|]; split; [exact W|]; intros _; exact Ew|].
      split; [intros a _ E; discriminate|]. eauto.
    - intros Lo. apply low_app in Lo as [Lo [La _]]. destruct (IH Lo) as (t & Et & R & K & Sh).
      pose proof (apply_operation_ok _ _ _ _ _ op R K Sh Ra La) as A. rewrite Es in A. destruct A as (t' & Ea & R' & Sh').
      exists t'. rewrite run_state_app, Et. cbn. rewrite Ea. split; [reflexivity|]. split; [|split; [|exact Sh']].
      + eapply rel_ext; [|intros b _; reflexivity|exact R']. intros Kp l1 l2 c1 b E. subst l. apply Kp with (l2 := l2 ++ [AOp a op]). rewrite <- app_assoc. reflexivity.
      + intros b Rb Tb. destruct (Z.eq_dec b a) as [->|N]; [lia|]. rewrite upd_other in Tb by exact N. apply K; assumption.
    - intros Lo. apply low_app in Lo as [Lo _]. destruct (IH Lo) as (t & Et & R & K & (p & tl & tr & ->)).
      destruct (finalize_ok (kept depth l) (kept depth (l ++ [ACommit])) c) with (t := SBr depth p tl tr) (n := S depth) (q := 0) as (t' & o & Ef & _ & _ & _ & Sh); [|exact K|exact R|].
      { intros Kp a. eapply Kp; [reflexivity|exact Hl]. }
      destruct (Sh _ _ _ _ eq_refl) as (p' & l' & r' & -> & R'). exists (SBr depth p' l' r').
      rewrite run_state_app, Et. cbn [run_actions run_action]. unfold finalize. rewrite Ef. split; [reflexivity|]. split; [|split; [apply okrange_commit|eauto]].
      eapply rel_ext; [|intros b _; reflexivity|exact R']. intros Kp. split; [|exact Kp]. intros l1 l2 c1 b E. subst l. apply Kp with (l2 := l2 ++ [ACommit]). rewrite <- app_assoc. reflexivity.
  Qed.

  Lemma state_get depth l c : History depth l c -> low l -> exists t, run_state H depth l = Some t /\
    forall a, 0 <= a < 2 ^ Z.of_nat (S depth) -> get_state t a = Some (c_old (c a), c_new (c a)).
  Proof.
    intros Hl Lo. destruct (history_rel _ _ _ Hl Lo) as (t & Et & R & K & (p & tl & tr & ->)). exists (SBr depth p tl tr). split; [exact Et|].
    intros a Ra. unfold get_state.
    replace ((0 <=? a) && (a <? 2 ^ (Z.of_nat depth + 1))) with true
      by (symmetry; apply andb_true_intro; split; [apply Z.leb_le; lia|apply Z.ltb_lt; rewrite Nat2Z.inj_succ in Ra; unfold Z.succ in Ra; lia]).
    pose proof (get_helper_ok _ c a (SBr depth p tl tr) depth 0 R ltac:(discriminate) ltac:(apply root_range; exact Ra)) as A. cbn zeta in A.
    rewrite (Z.mod_small a) in A by exact Ra. destruct (path_next (depth, a)) as [pp dd]. exact A.
  Qed.
  Lemma state_conflict depth l c a op : History depth l c -> low l -> 0 <= a < 2 ^ Z.of_nat (S depth) -> a < P - 1 -> cell_step (c a) op = None ->
    run_state H depth (l ++ [AOp a op]) = None.
  Proof.
    intros Hl Lo Ra La Es. destruct (history_rel _ _ _ Hl Lo) as (t & Et & R & K & Sh). rewrite run_state_app, Et. cbn.
    pose proof (apply_operation_ok _ _ _ _ _ op R K Sh Ra La) as A. rewrite Es in A. rewrite A. reflexivity.
  Qed.
  Lemma state_proof depth l c : History depth l c -> low l -> kept depth l -> exists t p, run_state H depth l = Some t /\ root_proof t = Some p /\
    su_acc HR (S depth) p /\ states_block H (S depth) c p /\ (su_sp p = true -> su_addr p = 0).
  Proof.
    intros Hl Lo Kp. destruct (history_rel _ _ _ Hl Lo) as (t & Et & R & K & (p & tl & tr & ->)). exists (SBr depth p tl tr), p. split; [exact Et|]. split; [reflexivity|].
    destruct R as (_ & _ & _ & W & Sp). specialize (Sp Kp). destruct (want_spec (S depth) 0 c K) as (p' & t' & ts & Ew & A & W' & L & St & Rt & F).
    rewrite Ew in Sp. injection Sp as ->. split; [exact A|]. rewrite enum_addresses in L, F. split; [exists t', ts; auto|]. apply W.
  Qed.
End Node.
