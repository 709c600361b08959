(** A block that deletes an object next to an untouched one leaves a stale proof in the state tree. *)
From stdpp Require Import prelude.
From Verif Require Import Field RecModel RecSpec RecProofs RecTrees RecState RecComplete NodeModel NodeSpec NodeState.
Open Scope Z_scope.

Lemma delems_inj a b : delems a = delems b -> a = b.
Proof. destruct a, b. unfold delems. cbn. intros E. injection E as -> -> -> ->. reflexivity. Qed.
Lemma delems2_inj a b c d : delems a ++ delems b = delems c ++ delems d -> a = c /\ b = d.
Proof. destruct a, b, c, d. unfold delems. cbn. intros E. injection E as -> -> -> -> -> -> -> ->. auto. Qed.

Section Stale.
  Variable H : list Z -> dig.
  Hypothesis H_ok : forall l, dig_ok (H l).
  Variables o o' : object.
  Definition stale1 : list action := [AOp 0 (OpUpsert o); AOp 1 (OpUpsert o'); ACommit; AOp 0 OpDelete].
  Definition stale2 : list action := stale1 ++ [ACommit; AOp 2 OpRead].
  Definition c_a : cells := upd (upd no_cells 0 (Cell None (Put o))) 1 (Cell None (Put o')).
  Definition c_1 : cells := upd (commit c_a) 0 (Cell (Some o) Removed).
  Definition c_2 : cells := upd (commit c_1) 2 (Cell None Seen).
  Lemma hist_a : History 1 [AOp 0 (OpUpsert o); AOp 1 (OpUpsert o')] c_a.
  Proof.
    change [AOp 0 (OpUpsert o); AOp 1 (OpUpsert o')] with (([] ++ [AOp 0 (OpUpsert o)]) ++ [AOp 1 (OpUpsert o')]).
    constructor; [constructor; [constructor| |reflexivity]| |reflexivity]; cbn; lia.
  Qed.
  Lemma hist_1 : History 1 stale1 c_1.
  Proof.
    change stale1 with (([AOp 0 (OpUpsert o); AOp 1 (OpUpsert o')] ++ [ACommit]) ++ [AOp 0 OpDelete]).
    constructor; [constructor; exact hist_a|cbn; lia|reflexivity].
  Qed.
  Lemma hist_2 : History 1 stale2 c_2.
  Proof.
    change stale2 with ((stale1 ++ [ACommit]) ++ [AOp 2 OpRead]). constructor; [constructor; exact hist_1|cbn; lia|reflexivity].
  Qed.
  Lemma History_det l c : History 1 l c -> forall c', History 1 l c' -> forall a, c a = c' a.
  Proof.
    induction 1 as [|l c a op x Hl IH Ra Es|l c Hl IH]; intros c' H' b.
    - inversion H' as [|l' ? ? ? ? ? ? ? E|l' ? ? E]; [reflexivity|destruct l'; discriminate|destruct l'; discriminate].
    - inversion H' as [E|l' c2 a' op' x' H2 R2 E2 E|l' c2 H2 E]; [destruct l; discriminate| |apply app_inj_tail in E as [_ E]; discriminate].
      apply app_inj_tail in E as [-> E]. injection E as -> ->. unfold upd. rewrite (IH _ H2 a) in Es. rewrite Es in E2. injection E2 as ->. destruct (b =? a); [reflexivity|apply IH, H2].
    - inversion H' as [E|l' c2 a' op' x' H2 R2 E2 E|l' c2 H2 E]; [destruct l; discriminate|apply app_inj_tail in E as [_ E]; discriminate|].
      apply app_inj_tail in E as [-> _]. rewrite (IH _ H2 b). reflexivity.
  Qed.
  Lemma kept_1 : kept 1 stale1.
  Proof.
    intros l1 l2 c a E Hl. assert (l1 = [AOp 0 (OpUpsert o); AOp 1 (OpUpsert o')]) as ->.
    { unfold stale1 in E. destruct l1 as [|? [|? [|? [|? [|]]]]]; try discriminate E; injection E; intros; subst; try discriminate; try reflexivity. }
    rewrite (History_det _ _ Hl _ hist_a a). unfold c_a, upd. destruct (a =? 1); [discriminate|]. destruct (a =? 0); [discriminate|]. discriminate.
  Qed.
  Lemma low_1 : low stale1. Proof. vm_compute. repeat split. Qed.
  Lemma low_2 : low stale2. Proof. vm_compute. repeat split. Qed.

  Definition oldL : dig := H (delems (obj_hash H o) ++ delems (obj_hash H o')).
  Definition newL : dig := H (delems (empty_hash H) ++ delems (obj_hash H o')).
  Definition emptyR : dig := H (delems (empty_hash H) ++ delems (empty_hash H)).
  Definition sumL : dig := H ([0] ++ delems (obj_hash H o) ++ delems (empty_hash H)).
  Definition sum2 : dig := H ([2] ++ delems (empty_hash H) ++ delems (empty_hash H)).
  Lemma want_L : want H 1 0 c_1 = Some (SuPi true sumL oldL newL 0).
  Proof.
    cbn [want]. rewrite !leaf_stmt_eq by (intros _; vm_compute; split; [discriminate|reflexivity]).
    unfold c_1, upd, commit, c_a, upd, leaf_res. cbn -[delems branch_prove ohash P dzero].
    unfold branch_prove. cbn [su_sp su_old su_new su_sum su_addr andb orb negb hof]. unfold hof. cbn [andb]. rewrite dadd_0_r by apply H_ok.
    reflexivity.
  Qed.
  Lemma want_R1 : want H 1 1 c_1 = Some (SuPi false dzero emptyR emptyR (P - 1)).
  Proof.
    cbn [want]. rewrite !leaf_stmt_eq by (intros X; vm_compute in X; discriminate).
    unfold c_1, upd, commit, c_a, upd, leaf_res. cbn -[delems branch_prove ohash P dzero]. reflexivity.
  Qed.
  Lemma want_R2 : want H 1 1 c_2 = Some (SuPi true sum2 emptyR emptyR 1).
  Proof.
    cbn [want]. rewrite !leaf_stmt_eq by (intros _; vm_compute; split; [discriminate|reflexivity]).
    unfold c_2, c_1, upd, commit, c_a, upd, leaf_res. cbn -[delems branch_prove ohash P dzero].
    unfold branch_prove. cbn [su_sp su_old su_new su_sum su_addr andb orb negb]. unfold hof. cbn [andb]. rewrite dadd_0_r by apply H_ok. reflexivity.
  Qed.

  Lemma stale_run : exists t1 t2 p1 p2,
    run_state H 1 stale1 = Some t1 /\ root_proof t1 = Some p1 /\ run_state H 1 stale2 = Some t2 /\ root_proof t2 = Some p2 /\
    su_new p1 = H (delems newL ++ delems emptyR) /\ su_old p2 = H (delems oldL ++ delems emptyR) /\
    su_sp p2 = true /\ su_sum p2 = H (delems sumL ++ delems sum2).
  Proof.
    destruct (history_rel H H_ok _ _ _ hist_1 low_1) as (t1 & E1 & R & K & (p1 & L & R0 & ->)).
    pose proof kept_1 as Kp. set (st := kept 1 stale1) in *. clearbody st.
    cbn [rel] in R. destruct R as (_ & RL & RR & W1 & S1). specialize (S1 Kp).
    assert (S1' : match want H 1 0 c_1, want H 1 1 c_1 with Some l, Some r => branch_prove H l r | _, _ => None end = Some p1) by exact S1.
    assert (Ew1 : Some p1 = branch_prove H (SuPi true sumL oldL newL 0) (SuPi false dzero emptyR emptyR (P - 1))).
    { rewrite <- S1', want_L, want_R1. reflexivity. }
    unfold branch_prove in Ew1. cbn [su_sp su_old su_new su_sum su_addr andb orb negb] in Ew1. injection Ew1 as Ep1.
    (* the left branch *)
    destruct L as [|hL pL l r|pL kL]; [specialize (RL 0 ltac:(unfold range; cbn; lia)); discriminate RL| |destruct RL as [RL _]; discriminate RL].
    cbn [rel] in RL. destruct RL as (EhL & Rl & Rr & WL & SL). injection EhL as <-. specialize (SL Kp). change (want H 1 0 c_1 = Some pL) in SL. rewrite want_L in SL. injection SL as <-.
    destruct l as [|? ? ? ?|pl kl]; [specialize (Rl 0 ltac:(unfold range; cbn; lia)); discriminate Rl|destruct Rl as [Rl _]; discriminate Rl|].
    destruct r as [|? ? ? ?|pr kr]; [specialize (Rr 1 ltac:(unfold range; cbn; lia)); discriminate Rr|destruct Rr as [Rr _]; discriminate Rr|].
    cbn [rel] in Rl, Rr. destruct Rl as (_ & Ekl & _). destruct Rr as (_ & Ekr & _). cbn in Ekl, Ekr. injection Ekl as <-. injection Ekr as <-.
    (* the right part is empty *)
    assert (FR : exists R1, finalize_tree H R0 = Some (R1, FPrune)).
    { destruct R0 as [|hR pR lR rR|pR kR]; [eexists; reflexivity| |destruct RR as [RR _]; discriminate RR].
      cbn [rel] in RR. destruct RR as (EhR & RlR & RrR & _). injection EhR as <-.
      destruct lR as [|? ? ? ?|? ?]; [|destruct RlR as [RlR _]; discriminate RlR|destruct RlR as (_ & RlR & _); vm_compute in RlR; discriminate RlR].
      destruct rR as [|? ? ? ?|? ?]; [|destruct RrR as [RrR _]; discriminate RrR|destruct RrR as (_ & RrR & _); vm_compute in RrR; discriminate RrR].
      eexists. reflexivity. }
    destruct FR as (R1 & FR).
    set (pL := SuPi true sumL oldL newL 0) in *.
    assert (Ef : finalize H (SBr 1 p1 (SBr 0 pL (SLf pl (KDeleted o)) (SLf pr (KUnused o'))) R0) = Some (SBr 1 p1 (SBr 0 pL SEmpty (SLf pr (KUnused o'))) SEmpty)).
    { unfold finalize. cbn [finalize_tree finalize_leaf fin_add]. rewrite FR. reflexivity. }
    (* reading address 2 *)
    destruct (create_branch_ok H H_ok True (commit c_1) OpRead 0 1 2) as (x & t & Es & Et & Rt);
      [unfold range; cbn; lia|vm_compute; split; [discriminate|reflexivity]|intros b Rb; unfold range in Rb; cbn in Rb; assert (b = 2 \/ b = 3) as [-> | ->] by lia; reflexivity|].
    injection Es as <-.
    assert (KR : okrange 1 1 c_2) by (intros b Rb _; unfold range in Rb; cbn in Rb; unfold P; lia).
    destruct (child_proof_ok H H_ok True c_2 1 1 t KR Rt) as (pR & EpR & _ & SR).
    specialize (SR I). rewrite want_R2 in SR. injection SR as <-.
    assert (EB : branch_prove H pL (SuPi true sum2 emptyR emptyR 1) = Some (SuPi true (H (delems sumL ++ delems sum2)) (H (delems oldL ++ delems emptyR)) (H (delems newL ++ delems emptyR)) 0)).
    { unfold branch_prove, pL. cbn [su_sp su_old su_new su_sum su_addr]. reflexivity. }
    eexists. eexists. eexists. eexists. split; [exact E1|]. split; [reflexivity|].
    unfold stale2. rewrite run_state_app, E1. cbn [run_actions run_action]. rewrite Ef.
    unfold apply_operation. change ((0 <=? 2) && (2 <? 2 ^ (Z.of_nat 1 + 1))) with true. cbn iota.
    change (path_next (1%nat, 2)) with (Some (0%nat, 0), true). cbn [apply_helper].
    change (2 mod 2 ^ Z.of_nat 1) with 0 in Et. rewrite Et. unfold recalc. change (child_proof H 1 (SBr 0 pL SEmpty (SLf pr (KUnused o')))) with (Some pL). rewrite EpR, EB.
    split; [reflexivity|]. split; [reflexivity|]. rewrite Ep1. cbn. auto.
  Qed.
  (** Either the next block's proof starts somewhere else than the previous block's ended and names another set of touched
      addresses than the operations did, or the hash has a collision. *)
  Lemma stale_attack : o <> default_object -> exists t1 t2 p1 p2,
    run_state H 1 stale1 = Some t1 /\ root_proof t1 = Some p1 /\ run_state H 1 stale2 = Some t2 /\ root_proof t2 = Some p2 /\
    ((su_old p2 <> su_new p1 /\ ~ states_block H 2 c_2 p2) \/ exists x y, x <> y /\ H x = H y).
  Proof.
    intros No. destruct stale_run as (t1 & t2 & p1 & p2 & A & B & C & D & N1 & O2 & S2 & M2). exists t1, t2, p1, p2. do 4 (split; [assumption|]).
    assert (HO : forall a b, obj_hash H a = obj_hash H b -> a <> b -> exists x y, x <> y /\ H x = H y).
    { intros a b E N. eexists. eexists. split; [|exact E]. intros X. apply N. destruct a as [[] ? ? []], b as [[] ? ? []]. unfold delems in X. cbn in X. congruence. }
    destruct (decide (su_old p2 = su_new p1)) as [E|E].
    - right. rewrite O2, N1 in E. destruct (decide (delems oldL ++ delems emptyR = delems newL ++ delems emptyR)) as [E1|E1]; [|eauto].
      apply delems2_inj in E1 as [E1 _]. unfold oldL, newL in E1.
      destruct (decide (delems (obj_hash H o) ++ delems (obj_hash H o') = delems (empty_hash H) ++ delems (obj_hash H o'))) as [E2|E2]; [|eauto].
      apply delems2_inj in E2 as [E2 _]. apply (HO _ _ E2 No).
    - destruct (decide (H (delems sumL ++ delems sum2) = sum2)) as [E2|E2].
      + right. eexists. eexists. split; [|exact E2]. unfold delems. cbn. intros X. apply (f_equal (@length Z)) in X. cbn in X. discriminate X.
      + left. split; [exact E|]. intros (t & ts & _ & _ & R & F).
        change (List.filter sl_touched (map (cell_leaf H c_2) (addresses 2))) with [cell_leaf H c_2 2] in F.
        destruct ts as [ts|]; [|discriminate F]. destruct R as [_ R]. cbn in F.
        inversion R as [s h Rs|l r hl hr h Rl Rr E3]; subst.
        * cbn in F. injection F as ->. unfold sleaf_hash, summarize, HRf in Rs. apply E2. rewrite <- M2, Rs. reflexivity.
        * assert (NN : forall u : btree sleaf, leaves u <> []). { induction u as [|u1 IH1 u2 IH2]; cbn; [discriminate|]. intros X. apply app_eq_nil in X as [X _]. exact (IH1 X). }
          cbn in F. destruct (leaves l) as [|s1 l1] eqn:El; [exact (NN _ El)|]. destruct (leaves r) as [|s2 l2] eqn:Er; [exact (NN _ Er)|].
          apply (f_equal (@length sleaf)) in F. cbn in F. rewrite app_length in F. cbn in F. lia.
  Qed.
End Stale.
