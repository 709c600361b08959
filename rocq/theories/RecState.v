(** Accumulated events, object transitions, state trees and blocks. *)
From stdpp Require Import prelude.
From Verif Require Import Field RecModel RecSpec RecProofs RecTrees.
Open Scope Z_scope.

Lemma perfect_length {A} h : forall t : btree A, perfect h t -> length (leaves t) = (2 ^ h)%nat.
Proof.
  induction h as [|h IH]; intros [a|l r]; cbn; try contradiction; [reflexivity|]. intros [Pl Pr].
  rewrite app_length, (IH _ Pl), (IH _ Pr). cbn. lia.
Qed.

Section State.
  Variable HR : list Z -> dig -> Prop.
  Notation pair := (pair_hash HR).

  (** ** accumulate_delta *)
  Lemma b2z_sum a b c : Z.b2z a + Z.b2z b = Z.b2z c -> c = a || b /\ a && b = false.
  Proof. destruct a, b, c; cbn; intros E; try discriminate; auto. Qed.
  Lemma count_app t a b : count_ty t (a ++ b) = (count_ty t a + count_ty t b)%nat.
  Proof. unfold count_ty. rewrite List.filter_app, app_length. reflexivity. Qed.
  Lemma existsb_count t es : existsb (ev_is t) es = false -> count_ty t es = 0%nat.
  Proof.
    unfold count_ty. induction es as [|e es IH]; cbn; [reflexivity|]. intros E. apply orb_false_iff in E as [E1 E2]. rewrite E1. apply IH, E2.
  Qed.
  Lemma credit_sum_app a b : credit_sum (a ++ b) = credit_sum a + credit_sum b.
  Proof. unfold credit_sum. induction a; cbn; [reflexivity|]. rewrite IHa. lia. Qed.

  Lemma ac_tree t x : WfTree (leaf' ac_wf (ac_leaf HR)) (branch' ac_wf (ac_branch HR)) t x ->
    exists T, EventRoot HR T (ac_hash x) /\ delta_of (leaves T) x /\ ac_wf x.
  Proof.
    induction 1 as [x [W (ow & ty & va & Co & Ct & Cv & Fl & F1 & F2 & F3 & F4 & F5 & M1 & M2 & M3 & M4 & M5 & M6 & (Cr1 & Cr2 & Cr3) & Hh)]
      |tl tr l r0 x Tl IHl Tr IHr [W (partial & (c & Pc & Ec) & A1 & A2 & G1 & G2 & G3 & S1 & S2 & S3 & S4 & S5 & M1 & M2 & M3 & M4 & M5 & M6 & M7 & M8 & Cd)]].
    - set (e := FEvent ow ty (ac_addr x) va).
      exists (BLeaf e). split; [constructor; split; [split; [exact Co|split; [exact Ct|split; [apply W|exact Cv]]]|exact Hh]|].
      split; [|exact W]. cbn [leaves].
      split; [intros e' [<-|[]]; reflexivity|]. split; [exact Fl|].
      assert (X : forall t, existsb (ev_is t) [e] = (ty =? t)) by (intros t; cbn; unfold ev_is; cbn; rewrite orb_false_r; reflexivity).
      rewrite !X. split; [exact F1|]. split; [exact F3|]. split; [exact F2|]. split; [exact F4|]. split; [exact F5|].
      assert (Y : forall t, (count_ty t [e] <= 1)%nat) by (intros t; unfold count_ty; cbn; destruct (ev_is t e); cbn; lia).
      split; [apply Y|]. split; [apply Y|]. split; [apply Y|].
      split; [|rewrite Cr3; unfold credit_sum, ev_credit; cbn; unfold ev_is; cbn].
      + intros e' [<-|[]]. clear X Y. subst e. unfold event_agrees. cbn [fe_ty fe_owner fe_value]. split; [intros E|split; [intros E|split; [intros E|split; [intros E|split; [intros E|intros E]]]]]; subst ty; cbn in *.
        * split; [apply M1|apply M6]; reflexivity.
        * apply M6; reflexivity.
        * apply M5; reflexivity.
        * split; [apply M1|apply M4]; reflexivity.
        * split; [apply M2|apply M3]; reflexivity.
        * split; [exact Cr1|]. destruct Cr2; [left|right]; assumption.
      + destruct (ty =? TCredit) eqn:E; [|f_equal; lia].
        destruct Cr2 as [Z|Z]; rewrite Z; cbn; f_equal; lia.
    - destruct IHl as (TL & RL & Dl & Wl). destruct IHr as (TR & RR & Dr & Wr).
      destruct Dl as (AL & FL & L1 & L2 & L3 & L4 & L5 & C1 & C2 & C3 & EL & KL).
      destruct partial.
      + cbn [ac_clear] in *. exists TL. split; [rewrite Ec; exact RL|]. split; [|exact W].
        unfold flag in *. cbn [ac_flags ac_addr ac_oo ac_no ac_od ac_nd ac_cd] in *.
        rewrite !Z.testbit_0_l in *. cbn [Z.b2z] in S1, S2, S3. rewrite orb_false_r in S4, S5. rewrite Z.add_0_r in S1, S2, S3.
        apply Z.b2z_inj in S1, S2, S3.
        split; [intros e I; rewrite A1; apply AL, I|]. split; [exact G1|].
        unfold flag. rewrite <- S1, S4, S5, <- S2, <- S3.
        repeat (split; [assumption|]). split.
        * intros e I. specialize (EL e I) as (E1 & E2 & E3 & E4 & E5 & E6).
          assert (HF : forall t, fe_ty e = t -> existsb (ev_is t) (leaves TL) = true).
          { intros t Et. apply existsb_exists. exists e. split; [exact I|]. unfold ev_is. rewrite Et. apply Z.eqb_refl. }
          unfold maybe_connect, owner_flag, flag in *. cbn [ac_flags] in *.
          split; [intros E; destruct (E1 E); rewrite M1, M7 by (rewrite L1, (HF _ E), ?orb_true_l, ?orb_true_r; reflexivity); auto|].
          split; [intros E; rewrite M7 by (rewrite L2, (HF _ E), ?orb_true_l, ?orb_true_r; reflexivity); auto|].
          split; [intros E; rewrite M5 by (rewrite L3, (HF _ E); reflexivity); auto|].
          split; [intros E; destruct (E4 E); rewrite M1, M3 by (rewrite L4, (HF _ E), ?orb_true_l, ?orb_true_r; reflexivity); auto|].
          split; [intros E; destruct (E5 E); rewrite M1, M3 by (rewrite L5, (HF _ E), ?orb_true_l, ?orb_true_r; reflexivity); auto|].
          exact E6.
        * rewrite Cd. rewrite fadd_0_r by (rewrite KL; apply Z.mod_pos_bound; vm_compute; reflexivity). exact KL.
      + cbn [ac_clear] in *. destruct Dr as (AR & FR & R1 & R2 & R3 & R4 & R5 & D1 & D2 & D3 & ER & KR).
        exists (BNode TL TR). split; [rewrite Ec; econstructor; eassumption|]. split; [|exact W]. cbn [leaves].
        apply b2z_sum in S1 as [S1 N1], S2 as [S2 N2], S3 as [S3 N3].
        split; [intros e I; apply in_app_or in I as [I|I]; [rewrite A1; apply AL, I|rewrite A2; apply AR, I]|]. split; [exact G1|].
        unfold flag in *. rewrite !existsb_app, S1, S2, S3, S4, S5, L1, L2, L3, L4, L5, R1, R2, R3, R4, R5.
        repeat (split; [reflexivity|]). rewrite !count_app.
        assert (NN : forall t fl fr, fl = existsb (ev_is t) (leaves TL) -> fr = existsb (ev_is t) (leaves TR) -> fl && fr = false ->
          (count_ty t (leaves TL) <= 1 -> count_ty t (leaves TR) <= 1 -> count_ty t (leaves TL) + count_ty t (leaves TR) <= 1)%nat).
        { intros t fl fr -> -> N. apply andb_false_iff in N as [N|N]; rewrite (existsb_count _ _ N); lia. }
        split; [eapply NN; [exact L1|exact R1|exact N1|exact C1|exact D1]|].
        split; [eapply NN; [exact L4|exact R4|exact N2|exact C2|exact D2]|].
        split; [eapply NN; [exact L5|exact R5|exact N3|exact C3|exact D3]|].
        unfold maybe_connect, owner_flag, flag in *.
        split.
        * intros e I. apply in_app_or in I as [I|I].
          -- specialize (EL e I) as (E1 & E2 & E3 & E4 & E5 & E6).
             assert (HF : forall t, fe_ty e = t -> existsb (ev_is t) (leaves TL) = true).
             { intros t Et. apply existsb_exists. exists e. split; [exact I|]. unfold ev_is. rewrite Et. apply Z.eqb_refl. }
             split; [intros E; destruct (E1 E); rewrite M1, M7 by (rewrite L1, (HF _ E), ?orb_true_l, ?orb_true_r; reflexivity); auto|].
             split; [intros E; rewrite M7 by (rewrite L2, (HF _ E), ?orb_true_l, ?orb_true_r; reflexivity); auto|].
             split; [intros E; rewrite M5 by (rewrite L3, (HF _ E); reflexivity); auto|].
             split; [intros E; destruct (E4 E); rewrite M1, M3 by (rewrite L4, (HF _ E), ?orb_true_l, ?orb_true_r; reflexivity); auto|].
             split; [intros E; destruct (E5 E); rewrite M1, M3 by (rewrite L5, (HF _ E), ?orb_true_l, ?orb_true_r; reflexivity); auto|].
             exact E6.
          -- specialize (ER e I) as (E1 & E2 & E3 & E4 & E5 & E6).
             assert (HF : forall t, fe_ty e = t -> existsb (ev_is t) (leaves TR) = true).
             { intros t Et. apply existsb_exists. exists e. split; [exact I|]. unfold ev_is. rewrite Et. apply Z.eqb_refl. }
             split; [intros E; destruct (E1 E); rewrite M2, M8 by (rewrite R1, (HF _ E), ?orb_true_l, ?orb_true_r; reflexivity); auto|].
             split; [intros E; rewrite M8 by (rewrite R2, (HF _ E), ?orb_true_l, ?orb_true_r; reflexivity); auto|].
             split; [intros E; rewrite M6 by (rewrite R3, (HF _ E); reflexivity); auto|].
             split; [intros E; destruct (E4 E); rewrite M2, M4 by (rewrite R4, (HF _ E), ?orb_true_l, ?orb_true_r; reflexivity); auto|].
             split; [intros E; destruct (E5 E); rewrite M2, M4 by (rewrite R5, (HF _ E), ?orb_true_l, ?orb_true_r; reflexivity); auto|].
             exact E6.
        * rewrite Cd, credit_sum_app, KL, KR. unfold fadd. rewrite <- Zplus_mod. reflexivity.
  Qed.

  (** ** match_delta *)
  Variable oac : nat -> vd * ac_pi -> Prop.
  Lemma has_existsb t es : existsb (ev_is t) es = true <-> has t es.
  Proof.
    rewrite existsb_exists. unfold has, ev_is. split; intros (e & I & E); exists e; (split; [exact I|]); apply Z.eqb_eq; exact E.
  Qed.
  Lemma ac_proof_tree x : ac_proof HR own_policy oac x -> exists T, EventRoot HR T (ac_hash x) /\ delta_of (leaves T) x /\ ac_wf x.
  Proof. intros (v & -> & X). apply acc_tree in X as (tl & tr & X). exact (ac_tree _ _ X). Qed.

  Lemma md_leaf_change x : md_wf x -> md_leaf HR own_policy oac x ->
    exists c, EventRoot HR (oc_events c) (md_event x) /\ change_hash HR c (md_state x) /\ transition_ok (md_height x) c.
  Proof.
    intros W (a & oo & no & od & nd & upd & oc & nc & Aa & Coo & Cno & Cod & Cnd & Cu & Coc & Cnc & Hc & Ee & M1 & M2 & M3 & M4 & Ecr).
    destruct (ac_proof_tree _ Aa) as (T & RT & D & Wa). destruct D as (AL & FL & L1 & L2 & L3 & L4 & L5 & C1 & C2 & C3 & EL & KL).
    unfold md_core in Hc. destruct Hc as (_ & Gt & Dw & Mo & Mg & ho & hn & Ho & Hn & Hs).
    exists (OChange (ac_addr a) T (Obj oo upd oc od)
      (Obj no (if hash_is_zero no then 0 else if Z.testbit (ac_flags a) FGive || Z.testbit (ac_flags a) FWrite || negb (oc =? nc) then md_height x else upd) nc nd)).
    unfold transition_ok. cbn [oc_events oc_addr oc_old oc_new o_owner o_data o_credits o_updated].
    split; [rewrite Ee; exact RT|]. split; [exists ho, hn; auto|].
    unfold maybe_connect, owner_flag, flag in *.
    assert (HW : Z.testbit (ac_flags a) FWrite = true <-> has TWrite (leaves T)) by (rewrite L1; apply has_existsb).
    assert (HG : Z.testbit (ac_flags a) FGive = true <-> has TGive (leaves T)) by (rewrite L4; apply has_existsb).
    assert (HT : Z.testbit (ac_flags a) FTake = true <-> has TTake (leaves T)) by (rewrite L5; apply has_existsb).
    assert (HRd : Z.testbit (ac_flags a) FRead = true <-> has TRead (leaves T)) by (rewrite L3; apply has_existsb).
    assert (HGf : ~ has TGive (leaves T) -> Z.testbit (ac_flags a) FGive = false) by (intros N; apply not_true_iff_false; rewrite HG; exact N).
    assert (HWf : ~ has TWrite (leaves T) -> Z.testbit (ac_flags a) FWrite = false) by (intros N; apply not_true_iff_false; rewrite HW; exact N).
    assert (IN : forall t e, In e (leaves T) -> fe_ty e = t -> has t (leaves T)) by (intros t e I E; exists e; auto).
    split; [exact AL|]. split; [exact C1|]. split; [exact C2|]. split; [exact C3|].
    split. { intros N. apply HW. apply orb_true_iff in Dw as [Dw|Dw]; [apply dig_eqb_iff in Dw; contradiction|exact Dw]. }
    split. { intros e I E. rewrite M4 by (apply HW; eauto). destruct (EL e I) as (X & _). apply (X E). }
    split. { intros e I E. rewrite M3 by (apply HRd; eauto). destruct (EL e I) as (_ & _ & X & _). apply (X E). }
    split. { intros e I E Hw. rewrite M4 by (apply HW; exact Hw). destruct (EL e I) as (_ & X & _). apply (X E). }
    split. { rewrite <- HG, <- HT, Gt. reflexivity. }
    unfold b2 in *.
    split. { intros N. pose proof (HGf N) as G. rewrite G in Mg.
      destruct (hash_is_zero oo) eqn:Zo; [exfalso; destruct (hash_is_zero no); cbn in Mg; lia|].
      destruct (hash_is_zero no) eqn:Zn; [exfalso; cbn in Mg; lia|].
      destruct (dig_eqb oo no) eqn:Eo; [|exfalso; cbn in Mo; lia]. apply dig_eqb_iff in Eo. split; [exact Eo|].
      intros X. apply hash_is_zero_iff in X. congruence. }
    split. { intros G. apply HG in G. rewrite G in Mg.
      destruct (dig_eqb oo no) eqn:Eo; [exfalso; cbn in Mg, Mo; lia|].
      split; [intros X; apply dig_eqb_iff in X; congruence|].
      destruct (hash_is_zero oo) eqn:Zo; [left; apply hash_is_zero_iff; exact Zo|].
      destruct (hash_is_zero no) eqn:Zn; [right; apply hash_is_zero_iff; exact Zn|]. exfalso; cbn in Mg; lia. }
    split. { intros e I E. destruct (EL e I) as (_ & _ & _ & X & _). destruct (X E) as [X1 X2].
      assert (G : Z.testbit (ac_flags a) FGive = true) by (apply HG; eauto).
      rewrite M1, M2 by (rewrite G; reflexivity). auto. }
    split. { intros e I E. destruct (EL e I) as (_ & _ & _ & _ & X & _). destruct (X E) as [X1 X2].
      assert (G : Z.testbit (ac_flags a) FTake = true) by (apply HT; eauto).
      rewrite M1, M2 by (rewrite G, orb_true_r; reflexivity). auto. }
    split. { intros e I E G. apply HG in G. destruct (EL e I) as (X & _). destruct (X E) as [X1 _].
      rewrite M1 by (rewrite G; reflexivity). auto. }
    split; [rewrite Ecr; exact KL|].
    split; [intros ->; reflexivity|].
    assert (Zn : no <> dzero -> hash_is_zero no = false) by (intros N; apply not_true_iff_false; rewrite hash_is_zero_iff; exact N).
    split.
    - intros N [G|[G|G]]; rewrite (Zn N); [apply HG in G; rewrite G; reflexivity|apply HW in G; rewrite G, orb_true_r; reflexivity|].
      apply Z.eqb_neq in G. rewrite G, orb_true_r. reflexivity.
    - intros N N1 N2 E. rewrite (Zn N), (HGf N1), (HWf N2), E, Z.eqb_refl. reflexivity.
  Qed.
  Lemma md_tree t x : WfTree (leaf' md_wf (md_leaf HR own_policy oac)) (branch' md_wf (md_branch HR)) t x ->
    exists ms, TreeRoot (fun c => EventRoot HR (oc_events c)) pair ms (md_event x) /\ TreeRoot (change_hash HR) pair ms (md_state x) /\
      Forall (transition_ok (md_height x)) (leaves ms).
  Proof.
    induction 1 as [x [W L]|tl tr l r x Tl IHl Tr IHr [W (partial & (c1 & P1 & E1) & (c2 & P2 & E2) & H1 & H2)]].
    - destruct (md_leaf_change x W L) as (c & A & B & C). exists (BLeaf c). split; [constructor; exact A|]. split; [constructor; exact B|]. constructor; [exact C|constructor].
    - destruct IHl as (ml & Al & Bl & Cl). destruct IHr as (mr & Ar & Br & Cr). destruct partial.
      + exists ml. rewrite E1, E2, H1. auto.
      + exists (BNode ml mr). split; [rewrite E1; econstructor; eassumption|]. split; [rewrite E2; econstructor; eassumption|].
        cbn. apply List.Forall_app. rewrite H1. split; [exact Cl|]. rewrite H2. exact Cr.
  Qed.
  Lemma events_flatten ms h : TreeRoot (fun c => EventRoot HR (oc_events c)) pair ms h ->
    exists T, EventRoot HR T h /\ leaves T = concat (map (fun c => leaves (oc_events c)) (leaves ms)).
  Proof.
    induction 1 as [c h R|l r hl hr h Rl IHl Rr IHr N].
    - exists (oc_events c). split; [exact R|]. cbn. rewrite app_nil_r. reflexivity.
    - destruct IHl as (Tl & Al & Bl), IHr as (Tr & Ar & Br). exists (BNode Tl Tr). split; [econstructor; eassumption|].
      cbn. rewrite Bl, Br, map_app, concat_app. reflexivity.
  Qed.

  (** ** state_update *)
  Lemma su_tree h : forall x, su_acc HR h x -> exists t,
    StateTree HR h t (su_old x) (su_new x) /\
    (exists ts, ORoot (sleaf_hash HR) pair ts (su_sp x) (su_sum x) /\ oleaves ts = List.filter sl_touched (leaves t)) /\
    (su_sp x = true -> forall i s, nth_error (leaves t) i = Some s -> sl_touched s = true ->
       sl_addr s = (su_addr x * 2 ^ Z.of_nat h + Z.of_nat i) mod P) /\
    (forall s, In s (leaves t) -> sl_touched s = true -> canon (sl_addr s) /\ sl_addr s <> P - 1) /\ su_wf x.
  Proof.
    induction h as [|h IH]; intros x.
    - intros [W (Z0 & Ep & Un & d & Hd & Es)]. exists (BLeaf (SLeaf (su_sp x) (su_addr x) (su_old x) (su_new x))).
      split. { split; [exact I|]. split; [constructor; reflexivity|]. split; [constructor; reflexivity|].
        intros s [<-|[]]. cbn. intros E. unfold at_least_one_true in Un. rewrite E, orb_false_r in Un. apply dig_eqb_iff, Un. }
      split. { cbn. destruct (su_sp x); [exists (Some (BLeaf (SLeaf true (su_addr x) (su_old x) (su_new x))))|exists None]; (split; [|reflexivity]).
        - split; [reflexivity|]. constructor. rewrite Es. exact Hd.
        - split; [reflexivity|exact Es]. }
      split. { intros _ i s Hi _. destruct i as [|[|]]; [|discriminate|discriminate]. injection Hi as <-. cbn.
        rewrite Z.mul_1_r, Z.add_0_r. symmetry. apply Z.mod_small. apply W. }
      split; [|exact W]. intros s [<-|[]]. cbn. intros E. split; [apply W|]. rewrite E in Ep. intros X. rewrite X in Ep. discriminate Ep.
    - intros (l & r & Al & Ar & W & Ep & Hs & (co & Po & Eo) & (cn & Pn & En) & lp & rp & Hl & Hr & Em & Ea).
      destruct (IH _ Al) as (tl & (Pl & Ol & Nl & Ul) & (tsl & Rl & Fl) & Dl & Cl & Wl).
      destruct (IH _ Ar) as (tr & (Pr & Or & Nr & Ur) & (tsr & Rr & Fr) & Dr & Cr & Wr).
      exists (BNode tl tr).
      split. { split; [split; assumption|]. split; [cbn [tmap]; rewrite Eo; econstructor; eassumption|]. split; [cbn [tmap]; rewrite En; econstructor; eassumption|].
        intros s I. cbn in I. apply in_app_or in I as [I|I]; [apply Ul|apply Ur]; exact I. }
      split. { exists (ojoin tsl tsr). split; [rewrite Ep; exact (hof_root HR (sleaf_hash HR) _ _ _ _ _ _ _ (proj1 Wl) (proj1 Wr) Rl Rr Hs)|].
        rewrite oleaves_ojoin, Fl, Fr. cbn [leaves]. rewrite List.filter_app. reflexivity. }
      split; [|split; [|exact W]].
      2:{ intros s I. cbn in I. apply in_app_or in I as [I|I]; [apply Cl|apply Cr]; exact I. }
      intros Esp i s Hi Ht. cbn [leaves] in Hi.
      rewrite Nat2Z.inj_succ, Z.pow_succ_r by lia.
      assert (PP : P <> 0) by (vm_compute; discriminate).
      destruct (lt_dec i (length (leaves tl))) as [Li|Li].
      + rewrite nth_error_app1 in Hi by exact Li.
        assert (Sl : su_sp l = true).
        { destruct (su_sp l) eqn:E; [reflexivity|]. exfalso. destruct tsl; cbn in Rl; [destruct Rl; congruence|].
          cbn in Fl. assert (X : In s (List.filter sl_touched (leaves tl))) by (apply filter_In; split; [eapply nth_error_In; exact Hi|exact Ht]).
          rewrite <- Fl in X. exact X. }
        rewrite (Dl Sl i s Hi Ht). rewrite Sl in Ea. cbn in Ea. rewrite Ea. destruct Hl as [_ Hl].
        rewrite <- Hl. rewrite Zplus_mod, Zmult_mod_idemp_l, <- Zplus_mod. f_equal. ring.
      + rewrite nth_error_app2 in Hi by lia. rewrite (perfect_length _ _ Pl) in Hi, Li.
        assert (Sr : su_sp r = true).
        { destruct (su_sp r) eqn:E; [reflexivity|]. exfalso. destruct tsr; cbn in Rr; [destruct Rr; congruence|].
          cbn in Fr. assert (X : In s (List.filter sl_touched (leaves tr))) by (apply filter_In; split; [eapply nth_error_In; exact Hi|exact Ht]).
          rewrite <- Fr in X. exact X. }
        rewrite (Dr Sr _ s Hi Ht).
        assert (Ax : su_addr x = rp).
        { rewrite Sr, orb_true_r in Ea. rewrite Ea. destruct (su_sp l) eqn:E; [|reflexivity]. apply Em. rewrite Sr. reflexivity. }
        rewrite Ax. destruct Hr as [_ Hr].
        assert (X : su_addr r mod P = (2 * rp + 1) mod P).
        { rewrite <- (Zplus_mod_idemp_l (2 * rp)), Hr, Zplus_mod_idemp_l. f_equal. lia. }
        rewrite Zplus_mod, Zmult_mod, X, <- Zmult_mod, <- Zplus_mod.
        f_equal. rewrite Nat2Z.inj_sub by lia. rewrite Nat2Z.inj_pow. change (Z.of_nat 2) with 2. ring.
  Qed.

  (** ** blocks *)
  Lemma root_rel {A B} (la : A -> dig -> Prop) (lb : B -> dig -> Prop) : hash_cf HR ->
    (forall a h x y, la a h -> pair x y h -> False) -> (forall a h x y, lb a h -> pair x y h -> False) ->
    forall T h, TreeRoot la pair T h -> forall T', TreeRoot lb pair T' h ->
    Forall2 (fun a b => exists h, la a h /\ lb b h) (leaves T) (leaves T').
  Proof.
    intros CF sa sb. induction 1 as [a h La|Tl Tr hl hr h Rl IHl Rr IHr N]; intros T' R'; inversion R'; subst.
    - constructor; [eauto|constructor].
    - exfalso; eapply sa; eassumption.
    - exfalso; eapply sb; eassumption.
    - destruct (pair_cf HR _ _ _ _ _ CF N H1) as [-> ->]. cbn. apply Forall2_app; auto.
  Qed.
  Lemma summarize_no_pair a o n h x y : hash_cf HR -> summarize HR a o n h -> pair x y h -> False.
  Proof. intros CF X Y. pose proof (CF _ _ _ X Y) as E. destruct o, n, x, y. discriminate E. Qed.
  Lemma summarize_cf a o n a' o' n' h : hash_cf HR -> summarize HR a o n h -> summarize HR a' o' n' h -> a = a' /\ o = o' /\ n = n'.
  Proof.
    intros CF X Y. pose proof (CF _ _ _ X Y) as E. destruct o, n, o', n'. cbn in E. injection E as -> -> -> -> -> -> -> -> ->. auto.
  Qed.
  Lemma event_root_nz T h : hash_nz HR -> EventRoot HR T h -> h <> dzero.
  Proof. intros NZ R ->. inversion R; subst; [destruct H as [_ H]|]; eapply NZ; eassumption. Qed.

  Variables (oev : nat -> vd * ev_pi -> Prop) (omg : nat -> vd * mg_pi -> Prop) (prog_acc : vd -> prog_pi -> Prop)
            (opg : nat -> vd * pg_pi -> Prop) (otx : nat -> vd * tx_pi -> Prop) (omd : nat -> vd * md_pi -> Prop)
            (obk : nat -> vd * bk_pi -> Prop) (sh : nat).
  Lemma block_step p x : hash_cf HR -> hash_nz HR -> bk_step HR own_policy oev omg prog_acc opg otx oac omd sh p x ->
    BlockChange HR prog_acc (bk_height x) sh (bk_state p) (bk_state x).
  Proof.
    intros CF NZ (Eh & Eb & Es & tx & md & su & (v1 & -> & Atx) & (v2 & -> & Amd) & Asu & Sp & Sa & E1 & E2 & E3 & E4 & E5).
    apply acc_tree in Atx as (? & ? & Atx). apply (tx_tree HR _ _ _ _ _ _ CF) in Atx as (txs & TM & RTM & STM & FTX & NTX & _).
    apply acc_tree in Amd as (? & ? & Amd). apply md_tree in Amd as (ms & Rev & Rst & Ftr).
    apply su_tree in Asu as (t & St & (ts & Rts & Fts) & Ad & _ & _).
    rewrite E4, E5 in St. rewrite E2 in Ftr.
    rewrite Sp in Rts. destruct ts as [ts|]; [|destruct Rts; discriminate]. destruct Rts as [_ Rts].
    exists t, (leaves ms), txs. split; [exact St|].
    split. { intros i s Hi Ht. rewrite (Ad Sp i s Hi Ht), Sa. f_equal. }
    split. { rewrite <- Fts. cbn [oleaves]. rewrite E3 in Rst.
      assert (X := root_rel (sleaf_hash HR) (change_hash HR) CF
        ltac:(intros ? ? ? ? X; eapply summarize_no_pair; [exact CF|exact X]) ltac:(intros ? ? ? ? (ho & hn & _ & _ & X); eapply summarize_no_pair; [exact CF|exact X])
        _ _ Rts _ Rst).
      eapply Forall2_impl; [exact X|]. intros s m (h & Hs & ho & hn & Ho & Hn & Hm).
      destruct (summarize_cf _ _ _ _ _ _ _ CF Hs Hm) as (-> & -> & ->). auto. }
    split; [exact Ftr|]. split; [exact FTX|].
    destruct (events_flatten _ _ Rev) as (T & RT & <-).
    rewrite <- E1 in RT.
    destruct TM as [TM|].
    - destruct RTM as [_ RTM]. assert (X : TM = T); [|subst; exact STM].
      eapply (root_inj HR (fevent_hash HR) CF); [intros; eapply fevent_no_pair; eassumption|intros; eapply fevent_hash_cf; eassumption|exact RTM|exact RT].
    - exfalso. destruct RTM as [_ RTM]. eapply event_root_nz; [exact NZ|exact RT|exact RTM].
  Qed.
  Lemma block_chain x : hash_cf HR -> hash_nz HR -> bk_acc HR own_policy oev omg prog_acc opg otx oac omd sh obk VBlock (VBlock, x) ->
    exists n, (0 < n)%nat /\ Chain HR prog_acc sh (bk_base x) n (bk_state x) /\ bk_height x = Z.of_nat n mod P.
  Proof.
    intros CF NZ X.
    assert (G : forall d q, bk_acc HR own_policy oev omg prog_acc opg otx oac omd sh obk d q -> d = VBlock -> q.1 = VBlock ->
      exists n, (0 < n)%nat /\ Chain HR prog_acc sh (bk_base q.2) n (bk_state q.2) /\ bk_height q.2 = Z.of_nat n mod P).
    { clear x X. induction 1 as [v x W|v p x Ap IH W St|n v x W O]; intros Ed Eq; try discriminate Ed. cbn in *. subst v.
      pose proof (block_step _ _ CF NZ St) as BC. destruct St as (Eh & Eb & Es & _).
      destruct (bk_height p =? 0) eqn:Z.
      - apply Z.eqb_eq in Z. cbn in Es. exists 1%nat. split; [lia|]. rewrite Z in Eh. split; [|exact Eh].
        rewrite Eb. rewrite Es in BC. econstructor; [constructor|]. rewrite Eh in BC. exact BC.
      - destruct (IH eq_refl eq_refl) as (n & Hn & C & Hh). exists (S n). split; [lia|].
        assert (E : bk_height x = Z.of_nat (S n) mod P).
        { rewrite Eh, Hh. unfold fadd. rewrite Zplus_mod_idemp_l. f_equal. lia. }
        split; [|exact E]. rewrite Eb. econstructor; [exact C|]. rewrite <- E. exact BC. }
    exact (G _ _ X eq_refl eq_refl).
  Qed.
End State.
