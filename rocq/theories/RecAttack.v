(** A complete one-block proof, and proofs of statements that should not be provable. *)
From stdpp Require Import prelude.
From Verif Require Import Field RecModel RecSpec RecProofs RecTrees RecState RecComplete.
Open Scope Z_scope.

(** ** One block with one transaction of one program that writes the object at address 0 of a state tree of height 1. *)
Section OneBlock.
  Variable HR : list Z -> dig -> Prop.
  Variable policy : ckt -> vd -> Prop.
  Hypothesis pol : forall c, policy c (VBranch c).
  Variables (oev : nat -> vd * ev_pi -> Prop) (omg : nat -> vd * mg_pi -> Prop) (prog_acc : vd -> prog_pi -> Prop)
            (opg : nat -> vd * pg_pi -> Prop) (otx : nat -> vd * tx_pi -> Prop) (oac : nat -> vd * ac_pi -> Prop)
            (omd : nat -> vd * md_pi -> Prop).
  Variables (w v he hv c1 c2 c3 c4 c5 c6 c7 c8 ho hn hs ro rn : dig) (pv : vd) (height : Z).
  Hypothesis w_ok : dig_ok w. Hypothesis w_nz : w <> dzero. Hypothesis v_ok : dig_ok v. Hypothesis height_ok : canon height.
  Hypothesis oks : dig_ok he /\ dig_ok hv /\ dig_ok ho /\ dig_ok hn /\ dig_ok hs /\ dig_ok ro /\ dig_ok rn.
  Hypothesis Hhe : HR (delems w ++ [0; 0] ++ delems v) he.
  Hypothesis Hhv : HR (concat (map le8 ([0; 0] ++ delems v))) hv.
  Hypothesis Hc1 : HR (delems he ++ delems he) c1.
  Hypothesis Hc2 : HR (concat (map le8 (delems hv ++ delems hv))) c2.
  Hypothesis Hc3 : HR (concat (map le8 (delems w ++ delems w))) c3.
  Hypothesis Hc4 : HR (delems he ++ delems dzero) c4.
  Hypothesis Hc5 : HR (delems dzero ++ delems dzero) c5.
  Hypothesis Hho : HR (delems w ++ [0; 0] ++ delems dzero) ho.
  Hypothesis Hhn : HR (delems w ++ [height; 0] ++ delems v) hn.
  Hypothesis Hhs : HR ([0] ++ delems ho ++ delems hn) hs.
  Hypothesis Hc6 : HR (delems hs ++ delems hs) c6.
  Hypothesis Hc7 : HR ([P - 1] ++ delems dzero ++ delems dzero) c7.
  Hypothesis Hc8 : HR (delems hs ++ delems dzero) c8.
  Hypothesis Hro : HR (delems ho ++ delems dzero) ro.
  Hypothesis Hrn : HR (delems hn ++ delems dzero) rn.
  Hypothesis Hpv : prog_acc pv (ProgPi w true hv dzero w).

  Lemma bwh xs h : Forall canon xs -> HR (concat (map le8 xs)) h -> byte_wise_hash HR xs h.
  Proof. intros C X. apply byte_wise_hash_spec; [exact C|]. exists xs. split; [apply words_for_canon, C|exact X]. Qed.
  Lemma c0 : canon 0. Proof. unfold canon, P; lia. Qed.

  Lemma ob_ev : ev_proof HR policy oev (EvPi he hv w).
  Proof.
    destruct oks as (O1 & O2 & _). exists (VBranch CEvent). split; [apply pol|]. apply acc_dup.
    - split; [exact O1|split; [exact O2|exact w_ok]].
    - exists 0, 0, v. split; [apply c0|]. split; [apply c0|]. split; [exact v_ok|]. split; [exact Hhe|].
      apply bwh; [|exact Hhv]. constructor; [apply c0|]. constructor; [apply c0|]. apply delems_canon, v_ok.
    - exists true. split; [exists c1; split; [exact Hc1|reflexivity]|]. split; [|split; reflexivity].
      exists c2. split; [|reflexivity]. apply bwh; [|exact Hc2]. apply List.Forall_app; split; apply delems_canon; exact O2.
  Qed.
  Lemma ob_mg : mg_proof HR policy omg (MgPi true he false dzero true he).
  Proof.
    destruct oks as (O1 & _). exists (VBranch CMerge). split; [apply pol|].
    assert (W1 : mg_wf (MgPi true he false dzero true he)) by (split; [exact O1|split; [apply dzero_ok|exact O1]]).
    assert (Fh : hash_or_forward HR true he false dzero he).
    { exists c4. split; [exact Hc4|]. cbn. symmetry. apply dadd_0_r, O1. }
    assert (F0 : hash_or_forward HR false dzero false dzero dzero).
    { exists c5. split; [exact Hc5|]. cbn. symmetry. apply dadd_00. }
    apply (acc_branch _ _ _ _ _ _ true true (MgPi true he false dzero true he) (MgPi false dzero false dzero false dzero)).
    - apply acc_leaf; [exact W1|]. split; [apply orb_true_r|]. split; [reflexivity|]. split; [reflexivity|exact Fh].
    - apply acc_leaf; [split; [apply dzero_ok|split; apply dzero_ok]|]. split; [reflexivity|]. split; [reflexivity|]. split; [reflexivity|exact F0].
    - exact W1.
    - cbn. split; [reflexivity|]. split; [reflexivity|]. split; [reflexivity|]. split; [exact Fh|]. split; [exact F0|exact Fh].
  Qed.
  Lemma ob_em : em_branch HR policy omg true true he true he true he.
  Proof. exists (MgPi true he false dzero true he). split; [exact ob_mg|]. cbn. auto 10. Qed.
  Lemma ob_pg : pg_proof HR policy oev omg prog_acc opg (PgPi w true he dzero w).
  Proof.
    destruct oks as (O1 & O2 & _). exists (VBranch CProgram). split; [apply pol|]. apply acc_dup.
    - split; [exact w_ok|split; [exact O1|split; [apply dzero_ok|exact w_ok]]].
    - exists pv, (ProgPi w true hv dzero w), (EvPi he hv w), true. split; [exact Hpv|]. split; [exact ob_ev|]. cbn. auto 10.
    - exists true. split; [|split; [exact ob_em|cbn; auto]]. exists c3. split; [|reflexivity].
      apply bwh; [|exact Hc3]. apply List.Forall_app; split; apply delems_canon; exact w_ok.
  Qed.
  Lemma ob_tx : tx_proof HR policy oev omg prog_acc opg otx (TxPi true he).
  Proof.
    destruct oks as (O1 & O2 & _). exists (VBranch CTx). split; [apply pol|]. apply acc_dup.
    - exact O1.
    - exists (PgPi w true he dzero w). split; [exact ob_pg|]. cbn. auto.
    - exists true. exact ob_em.
  Qed.
  Lemma ob_ac : ac_proof HR policy oac (AcPi he 0 1 w dzero dzero v 0).
  Proof.
    destruct oks as (O1 & O2 & _). exists (VBranch CAcc). split; [apply pol|]. apply acc_dup.
    - split; [exact O1|]. split; [apply c0|]. split; [unfold canon, P; cbn; lia|]. split; [exact w_ok|]. split; [apply dzero_ok|]. split; [apply dzero_ok|]. split; [exact v_ok|apply c0].
    - exists w, 0, v. split; [exact w_ok|]. split; [apply c0|]. split; [exact v_ok|]. cbn zeta. unfold maybe_connect, FCOUNT, MAX_LEAF_TRANSFER. cbn -[Z.pow].
      split; [lia|]. do 5 (split; [reflexivity|]). do 6 (split; [intros; (reflexivity || discriminate)|]). split; [|exact Hhe].
      split; [lia|]. split; [left; reflexivity|reflexivity].
    - exists true. split; [exists c1; split; [exact Hc1|reflexivity]|]. unfold maybe_connect, FCOUNT. cbn -[Z.pow].
      do 2 (split; [reflexivity|]). split; [lia|]. split; [lia|]. split; [lia|]. do 5 (split; [reflexivity|]).
      do 8 (split; [intros; (reflexivity || discriminate)|]). reflexivity.
  Qed.
  Lemma ob_md : md_proof HR policy oac omd (MdPi he hs height).
  Proof.
    destruct oks as (O1 & O2 & O3 & O4 & O5 & _). exists (VBranch CMatch). split; [apply pol|].
    assert (Zw : hash_is_zero w = false) by (apply not_true_iff_false; rewrite hash_is_zero_iff; exact w_nz).
    apply acc_dup.
    - split; [exact O1|split; [exact O5|exact height_ok]].
    - exists (AcPi he 0 1 w dzero dzero v 0), w, w, dzero, v, 0, 0, 0. split; [exact ob_ac|].
      split; [exact w_ok|]. split; [exact w_ok|]. split; [apply dzero_ok|]. split; [exact v_ok|]. do 3 (split; [apply c0|]).
      unfold maybe_connect. cbn [md_height md_state md_event ac_addr ac_flags ac_hash ac_cd].
      split; [|split; [reflexivity|do 4 (split; [intros; (reflexivity || discriminate)|]); reflexivity]].
      unfold md_core, FCOUNT. cbn zeta. rewrite Zw. rewrite (proj2 (dig_eqb_iff w w) eq_refl).
      split; [lia|]. split; [reflexivity|]. split; [apply orb_true_r|]. split; [reflexivity|]. split; [reflexivity|].
      exists ho, hn. split; [exact Hho|]. split; [exact Hhn|exact Hhs].
    - exists true. split; [exists c1; split; [exact Hc1|reflexivity]|]. split; [exists c6; split; [exact Hc6|reflexivity]|]. cbn; auto.
  Qed.
  Lemma ob_su : su_acc HR 1 (SuPi true hs ro rn 0).
  Proof.
    destruct oks as (O1 & O2 & O3 & O4 & O5 & O6 & O7).
    exists (SuPi true hs ho hn 0), (SuPi false dzero dzero dzero (P - 1)).
    split. { split; [split; [exact O5|split; [exact O3|split; [exact O4|apply c0]]]|]. split; [apply orb_true_r|]. split; [reflexivity|].
      split; [apply orb_true_r|]. exists hs. split; [exact Hhs|reflexivity]. }
    split. { split; [split; [apply dzero_ok|split; [apply dzero_ok|split; [apply dzero_ok|unfold canon, P; cbn; lia]]]|].
      split; [reflexivity|]. split; [vm_compute; reflexivity|]. split; [reflexivity|]. exists c7. split; [exact Hc7|reflexivity]. }
    split. { split; [exact O5|split; [exact O6|split; [exact O7|apply c0]]]. }
    cbn [su_branch su_sp su_sum su_old su_new su_addr]. unfold su_branch. cbn [su_sp su_sum su_old su_new su_addr].
    split; [reflexivity|]. split; [exists c8; split; [exact Hc8|]; cbn; symmetry; apply dadd_0_r, O5|].
    split; [exists ro; split; [exact Hro|reflexivity]|]. split; [exists rn; split; [exact Hrn|reflexivity]|].
    exists 0, (P - 1). split; [split; [apply c0|reflexivity]|]. split; [split; [unfold canon, P; lia|vm_compute; reflexivity]|].
    split; [discriminate|reflexivity].
  Qed.
  Lemma ob_step base h0 : height = fadd h0 1 -> (h0 = 0 -> base = ro) ->
    bk_step HR policy oev omg prog_acc opg otx oac omd 1 (BkPi base ro h0) (BkPi base rn height).
  Proof.
    intros Eh Eb. unfold bk_step. cbn [bk_height bk_base bk_state]. split; [exact Eh|]. split; [reflexivity|].
    split; [destruct (Z.eqb_spec h0 0) as [E|E]; [symmetry; apply Eb, E|reflexivity]|].
    exists (TxPi true he), (MdPi he hs height), (SuPi true hs ro rn 0).
    split; [exact ob_tx|]. split; [exact ob_md|]. split; [exact ob_su|]. cbn. auto 10.
  Qed.
End OneBlock.

(** The same for the code's hash function. *)
Lemma one_step_total H (policy : ckt -> vd -> Prop) oev omg (prog_acc : vd -> prog_pi -> Prop) opg otx oac omd w v pv height base h0 :
  (forall l, dig_ok (H l)) -> (forall c, policy c (VBranch c)) -> dig_ok w -> w <> dzero -> dig_ok v -> canon height ->
  prog_acc pv (ProgPi w true (H (concat (map le8 ([0; 0] ++ delems v)))) dzero w) ->
  height = fadd h0 1 ->
  let ho := H (delems w ++ [0; 0] ++ delems dzero) in let hn := H (delems w ++ [height; 0] ++ delems v) in
  let ro := H (delems ho ++ delems dzero) in let rn := H (delems hn ++ delems dzero) in
  (h0 = 0 -> base = ro) ->
  bk_step (HRf H) policy oev omg prog_acc opg otx oac omd 1 (BkPi base ro h0) (BkPi base rn height).
Proof.
  intros H_ok pol W Wn V Kh Pa Eh ho hn ro rn Eb.
  eapply (ob_step (HRf H) policy pol oev omg prog_acc opg otx oac omd w v (H (delems w ++ [0; 0] ++ delems v))
    (H (concat (map le8 ([0; 0] ++ delems v)))) _ _ _ _ _ _ _ _ ho hn _ ro rn pv height); try assumption; try reflexivity.
  repeat (split; [apply H_ok|]). apply H_ok.
Qed.

(** ** Single-event object changes that the match circuit accepts although they are not legal. *)
Section Attack.
  Variable H : list Z -> dig.
  Hypothesis H_ok : forall l, dig_ok (H l).
  Notation HR := (HRf H).
  Variables (oac : nat -> vd * ac_pi -> Prop) (omd : nat -> vd * md_pi -> Prop).

  (** any single event, any description agreeing with it, and any pair of objects within the match circuit's conditions *)
  Lemma md_single e oo no od nd aoo anod height ad ho hn hs he upd oc nc flags newu :
    fevent_ok e -> fe_addr e = ad -> flags = flags_of [e] ->
    event_agrees e (fst aoo) (snd aoo) (fst anod) (snd anod) ->
    dig_ok (fst aoo) -> dig_ok (snd aoo) -> dig_ok (fst anod) -> dig_ok (snd anod) ->
    dig_ok oo -> dig_ok no -> dig_ok od -> dig_ok nd -> canon upd -> canon oc -> canon nc -> canon height ->
    he = H (delems (fe_owner e) ++ [fe_ty e; fe_addr e] ++ delems (fe_value e)) ->
    (fe_ty e = TWrite -> nd = snd anod) -> (fe_ty e = TRead -> od = fst anod) -> fe_ty e <> TGive -> fe_ty e <> TTake ->
    od = nd \/ fe_ty e = TWrite -> oo = no -> oo <> dzero -> (nc - oc) mod P = credit_sum [e] mod P ->
    newu = (if (fe_ty e =? TWrite) || negb (oc =? nc) then height else upd) ->
    ho = H (delems oo ++ [upd; oc] ++ delems od) -> hn = H (delems no ++ [newu; nc] ++ delems nd) -> hs = H ([ad] ++ delems ho ++ delems hn) ->
    md_proof HR own_policy oac omd (MdPi he hs height).
  Proof.
    intros Ke <- -> EA A1 A2 A3 A4 K1 K2 K3 K4 K5 K6 K7 K8 -> MW MR NG NT DW <- Nz Cr -> -> -> ->.
    exists (VBranch CMatch). split; [reflexivity|].
    set (he := H (delems (fe_owner e) ++ [fe_ty e; fe_addr e] ++ delems (fe_value e))).
    assert (RT : EventRoot HR (BLeaf e) he) by (constructor; split; [exact Ke|reflexivity]).
    destruct (flags_of_spec [e]) as (F0 & F1 & F2 & F3 & F4 & F5).
    assert (Y : forall t, existsb (ev_is t) [e] = (fe_ty e =? t)) by (intros t; cbn; unfold ev_is; rewrite orb_false_r; reflexivity).
    rewrite !Y in *.
    assert (C : forall t, (count_ty t [e] <= 1)%nat) by (intros t; unfold count_ty; cbn; destruct (ev_is t e); cbn; lia).
    apply acc_dup.
    - split; [apply H_ok|split; [apply H_ok|exact K8]].
    - exists (AcPi he (fe_addr e) (flags_of [e]) (fst aoo) (snd aoo) (fst anod) (snd anod) (credit_sum [e] mod P)), oo, oo, od, nd, upd, oc, nc.
      split. { apply (ac_complete H H_ok oac (BLeaf e)); try assumption; try apply C.
        - intros e' [<-|[]]; reflexivity.
        - intros e' [<-|[]]; exact EA.
        - apply Ke. }
      do 7 (split; [assumption|]).
      assert (G0 : Z.testbit (flags_of [e]) FGive = false) by (rewrite F4; apply Z.eqb_neq, NG).
      assert (T0 : Z.testbit (flags_of [e]) FTake = false) by (rewrite F5; apply Z.eqb_neq, NT).
      unfold maybe_connect, owner_flag, flag. cbn [md_event md_state md_height ac_hash ac_addr ac_flags ac_cd ac_oo ac_no ac_od ac_nd].
      rewrite G0, T0, F1, F3.
      split; [|split; [reflexivity|split; [discriminate|split; [discriminate|split; [intros E; apply MR, Z.eqb_eq, E|split; [intros E; apply MW, Z.eqb_eq, E|exact Cr]]]]]].
      unfold md_core. cbn zeta. rewrite G0, T0, F1.
      assert (Zo : hash_is_zero oo = false) by (apply not_true_iff_false; rewrite hash_is_zero_iff; exact Nz). rewrite Zo, (proj2 (dig_eqb_iff oo oo) eq_refl).
      split; [exact F0|]. split; [reflexivity|].
      split. { apply orb_true_iff. destruct DW as [->|E]; [left; apply dig_eqb_iff; reflexivity|right; apply Z.eqb_eq, E]. }
      split; [reflexivity|]. split; [reflexivity|]. eexists. eexists. split; [reflexivity|]. split; [reflexivity|]. reflexivity.
    - exists true. split; [apply (partial_dup H); apply H_ok|]. split; [apply (partial_dup H); apply H_ok|]. cbn; auto.
  Qed.
End Attack.
