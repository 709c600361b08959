(** What the recursive-proof circuits accept: honest provers succeed, and attacks that succeed. *)
From stdpp Require Import prelude.
From Verif Require Import Field RecModel RecSpec RecProofs RecTrees RecState.
Open Scope Z_scope.

Lemma acc_dup {A} (c : ckt) (wf leaf : A -> Prop) (branch : A -> A -> A -> Prop) other a :
  wf a -> leaf a -> branch a a a -> acc c wf leaf branch other (VBranch c) (VBranch c, a).
Proof. intros W L B. apply (acc_branch _ _ _ _ _ _ true true a a); try assumption; apply acc_leaf; assumption. Qed.

Lemma word_for_canon x : canon x -> word_for x x.
Proof. unfold canon, word_for. intros C. split; [unfold P in C; lia|apply Z.mod_small; exact C]. Qed.
Lemma words_for_canon xs : Forall canon xs -> Forall2 word_for xs xs.
Proof. induction 1; constructor; [apply word_for_canon; assumption|assumption]. Qed.

Section Total.
  Variable H : list Z -> dig.
  Hypothesis H_ok : forall l, dig_ok (H l).
  Notation HR := (HRf H).
  Notation pair := (pair_hash HR).

  Lemma bwh_total xs : Forall canon xs -> exists h, byte_wise_hash HR xs h.
  Proof. intros C. eexists. apply byte_wise_hash_spec; [exact C|]. exists xs. split; [apply words_for_canon, C|reflexivity]. Qed.
  Lemma words_hash_ok xs h : WordsHash HR xs h -> dig_ok h.
  Proof. intros (ws & _ & ->). apply H_ok. Qed.
  Lemma hash_pair_total vm l r : dig_ok l -> dig_ok r -> exists h, hash_pair HR vm l r h.
  Proof.
    intros A B. destruct vm; unfold hash_pair; [apply bwh_total; apply List.Forall_app; split; apply delems_canon; assumption|].
    eexists. reflexivity.
  Qed.
  Lemma partial_dup vm d : dig_ok d -> unpruned_branch HR vm true d d d.
  Proof. intros O. destruct (hash_pair_total vm d d O O) as [h Hh]. exists h. auto. Qed.

  (** ** event roots *)
  Lemma event_root_ok T h : EventRoot HR T h -> dig_ok h.
  Proof. intros R. inversion R; subst; [destruct H0 as [_ ->]|rewrite H2]; apply H_ok. Qed.
  Lemma event_vm_ok T h : EventVmRoot HR T h -> dig_ok h.
  Proof. intros R. inversion R; subst; eapply words_hash_ok; eassumption. Qed.
  Lemma ev_complete oev T h hv owner : EventRoot HR T h -> EventVmRoot HR T hv -> Forall (fun e => fe_owner e = owner) (leaves T) -> dig_ok owner ->
    ev_proof HR own_policy oev (EvPi h hv owner).
  Proof.
    intros R V O Ko. exists (VBranch CEvent). split; [reflexivity|].
    assert (G : exists t, WfTree (leaf' ev_wf (ev_leaf HR)) (branch' ev_wf (ev_branch HR)) t (EvPi h hv owner) /\
       (match t with BLeaf _ => ev_leaf HR (EvPi h hv owner) | _ => True end)).
    { revert h hv R V O. induction T as [e|l IHl r IHr]; intros h hv R V O.
      - exists (BLeaf (EvPi h hv owner)).
        assert (L : ev_leaf HR (EvPi h hv owner)).
        { inversion R; subst. inversion V; subst. destruct H1 as [(K1 & K2 & K3 & K4) E]. inversion O; subst.
          exists (fe_ty e), (fe_addr e), (fe_value e). cbn. split; [exact K2|]. split; [exact K3|]. split; [exact K4|]. split; [exact E|].
          apply byte_wise_hash_spec; [|assumption]. constructor; [exact K2|]. constructor; [exact K3|]. apply delems_canon, K4. }
        split; [|exact L]. constructor. split; [split; [eapply event_root_ok; exact R|split; [eapply event_vm_ok; exact V|exact Ko]]|exact L].
      - inversion R as [|? ? hl hr ? RL RRt NP]; subst. inversion V as [|? ? vl vr ? VL VRt VP]; subst. cbn in O. apply List.Forall_app in O as [Ol Or].
        destruct (IHl _ _ RL VL Ol) as (tl & Wl & _). destruct (IHr _ _ RRt VRt Or) as (tr & Wr & _).
        exists (BNode tl tr). split; [|exact I]. econstructor; [exact Wl|exact Wr|].
        split; [split; [eapply event_root_ok; exact R|split; [eapply event_vm_ok; exact V|exact Ko]]|].
        exists false. cbn. split; [exists h; split; [exact NP|reflexivity]|]. split; [|auto].
        exists hv. split; [|reflexivity]. apply byte_wise_hash_spec; [|exact VP].
        apply List.Forall_app; split; apply delems_canon; eapply event_vm_ok; eassumption. }
    destruct G as ([a|tl tr] & W & L).
    - apply acc_dup; [inversion W as [? [X _]|]; subst; exact X|exact L|].
      exists true. cbn. split; [apply partial_dup; eapply event_root_ok; exact R|]. split; [apply partial_dup; eapply event_vm_ok; exact V|auto].
    - apply (tree_acc_gen CEvent _ _ _ oev _ _ W).
  Qed.

  (** ** merge *)
  Fixpoint prune {A} (side : bool) (t : btree (bool * A)) : option (btree A) :=
    match t with
    | BLeaf (b, a) => if Bool.eqb b side then Some (BLeaf a) else None
    | BNode l r => ojoin (prune side l) (prune side r)
    end.
  Lemma oroot_ok (t : option (btree dig)) p h : Forall dig_ok (oleaves t) -> ORoot eq pair t p h -> dig_ok h.
  Proof.
    destruct t as [t|]; cbn; intros F [_ R]; [|subst; apply dzero_ok]. inversion R; subst; [|rewrite H2; apply H_ok].
    inversion F; assumption.
  Qed.
  Lemma hof_total lp l rp r : exists x, hash_or_forward HR lp l rp r x.
  Proof. eexists. eexists. split; reflexivity. Qed.
  Lemma prune_leaves {A} (t : btree (bool * A)) : Interleave (oleaves (prune true t)) (oleaves (prune false t)) (leaves (tmap snd t)).
  Proof.
    induction t as [[[] a]|l IHl r IHr]; cbn; [repeat constructor|repeat constructor|].
    rewrite !oleaves_ojoin. apply Interleave_app; assumption.
  Qed.
  Lemma prune_dig_ok side (t : btree (bool * dig)) : Forall (fun p => dig_ok p.2) (leaves t) -> Forall dig_ok (oleaves (prune side t)).
  Proof.
    induction t as [[b a]|l IHl r IHr]; cbn.
    - intros F. inversion F; subst. destruct (Bool.eqb b side); cbn; repeat constructor. all: apply H2.
    - intros F. apply List.Forall_app in F as [Fl Fr]. rewrite oleaves_ojoin. apply List.Forall_app. auto.
  Qed.
  Lemma hof_wf lp l rp r x : dig_ok l -> dig_ok r -> hash_or_forward HR lp l rp r x -> dig_ok x.
  Proof.
    intros (L0 & L1 & L2 & L3) (R0 & R1 & R2 & R3) (h & -> & ->). destruct (lp && rp); [apply H_ok|].
    assert (PP : 0 < P) by reflexivity.
    split; [|split; [|split]]; cbn; unfold fadd, canon; apply Z.mod_pos_bound; exact PP.
  Qed.
  Lemma mg_complete omg (t : btree (bool * dig)) : Forall (fun p => dig_ok p.2) (leaves t) ->
    exists x, mg_proof HR own_policy omg x /\ ORoot eq pair (prune true t) (mg_ap x) (mg_a x) /\
      ORoot eq pair (prune false t) (mg_bp x) (mg_b x) /\ ORoot eq pair (Some (tmap snd t)) (mg_mp x) (mg_m x).
  Proof.
    intros F.
    assert (G : exists w x, WfTree (leaf' mg_wf (mg_leaf HR)) (branch' mg_wf (mg_branch HR)) w x /\ ORoot eq pair (prune true t) (mg_ap x) (mg_a x) /\
      ORoot eq pair (prune false t) (mg_bp x) (mg_b x) /\ ORoot eq pair (Some (tmap snd t)) (mg_mp x) (mg_m x)).
    { induction t as [[b a]|l IHl r IHr].
      - inversion F as [|? ? Ka _]; subst. cbn in Ka.
        set (x := MgPi b (if b then a else dzero) (negb b) (if b then dzero else a) true a).
        assert (E : hash_or_forward HR b (if b then a else dzero) (negb b) (if b then dzero else a) a).
        { eexists. split; [reflexivity|]. destruct b; cbn; [symmetry; apply dadd_0_r; exact Ka|symmetry; apply dadd_0_l; exact Ka]. }
        exists (BLeaf x), x. split.
        + constructor. split.
          * split; [cbn; destruct b; [exact Ka|apply dzero_ok]|]. split; [cbn; destruct b; [apply dzero_ok|exact Ka]|exact Ka].
          * split; [cbn; destruct b; unfold at_least_one_true; [apply orb_true_r|reflexivity]|].
            split; [cbn; destruct b; unfold at_least_one_true; [reflexivity|apply orb_true_r]|].
            split; [cbn; destruct b; reflexivity|exact E].
        + cbn. destruct b; cbn; (split; [split; [reflexivity|try constructor; reflexivity]|split; [split; [reflexivity|try constructor; reflexivity]|split; [reflexivity|constructor; reflexivity]]]).
      - cbn in F. apply List.Forall_app in F as [Fl Fr].
        destruct (IHl Fl) as (wl & xl & Wl & Al & Bl & Ml). destruct (IHr Fr) as (wr & xr & Wr & Ar & Br & Mr).
        pose proof (oroot_ok _ _ _ (prune_dig_ok true l Fl) Al) as Oal. pose proof (oroot_ok _ _ _ (prune_dig_ok true r Fr) Ar) as Oar.
        pose proof (oroot_ok _ _ _ (prune_dig_ok false l Fl) Bl) as Obl. pose proof (oroot_ok _ _ _ (prune_dig_ok false r Fr) Br) as Obr.
        assert (FM : forall k : btree (bool * dig), Forall (fun p => dig_ok p.2) (leaves k) -> Forall dig_ok (leaves (tmap snd k))).
        { intros k. rewrite leaves_tmap. intros X. apply List.Forall_map. exact X. }
        pose proof (oroot_ok (Some _) _ _ (FM l Fl) Ml) as Oml. pose proof (oroot_ok (Some _) _ _ (FM r Fr) Mr) as Omr.
        destruct (hof_total (mg_ap xl) (mg_a xl) (mg_ap xr) (mg_a xr)) as [ha Ha].
        destruct (hof_total (mg_bp xl) (mg_b xl) (mg_bp xr) (mg_b xr)) as [hb Hb].
        destruct (hof_total (mg_mp xl) (mg_m xl) (mg_mp xr) (mg_m xr)) as [hm Hm].
        set (x := MgPi (mg_ap xl || mg_ap xr) ha (mg_bp xl || mg_bp xr) hb (mg_mp xl || mg_mp xr) hm).
        exists (BNode wl wr), x. split.
        + econstructor; [exact Wl|exact Wr|]. split; [|repeat (split; [reflexivity|]); auto].
          split; [exact (hof_wf _ _ _ _ _ Oal Oar Ha)|]. split; [exact (hof_wf _ _ _ _ _ Obl Obr Hb)|exact (hof_wf _ _ _ _ _ Oml Omr Hm)].
        + split; [exact (hof_root HR eq _ _ _ _ _ _ _ Oal Oar Al Ar Ha)|]. split; [exact (hof_root HR eq _ _ _ _ _ _ _ Obl Obr Bl Br Hb)|].
          exact (hof_root HR eq (Some _) (Some _) _ _ _ _ _ Oml Omr Ml Mr Hm). }
    destruct G as ([y|wl wr] & x & W & A & B & M).
    - exists x. split; [|auto]. exists (VBranch CMerge). split; [reflexivity|].
      inversion W as [? [Wx Lx]|]; subst.
      set (z := MgPi false dzero false dzero false dzero).
      assert (Wz : mg_wf z) by (split; [apply dzero_ok|split; apply dzero_ok]).
      assert (Lz : mg_leaf HR z).
      { split; [reflexivity|]. split; [reflexivity|]. split; [reflexivity|]. eexists. split; [reflexivity|]. cbn. symmetry. apply dadd_00. }
      destruct Wx as (Wa & Wb & Wm).
      apply (acc_branch _ _ _ _ _ _ true true x z); [apply acc_leaf; [exact (conj Wa (conj Wb Wm))|exact Lx]|apply acc_leaf; [exact Wz|exact Lz]|exact (conj Wa (conj Wb Wm))|].
      split; [cbn; symmetry; apply orb_false_r|]. split; [cbn; symmetry; apply orb_false_r|]. split; [cbn; symmetry; apply orb_false_r|].
      split; [|split]; (eexists; split; [reflexivity|]; cbn; rewrite andb_false_r; symmetry; apply dadd_0_r; assumption).
    - exists x. split; [|auto]. exists (VBranch CMerge). split; [reflexivity|]. apply (tree_acc_gen CMerge _ _ _ omg _ _ W).
  Qed.

  (** ** accumulate_delta *)
  Definition flags_of (es : list fevent) : Z :=
    Z.b2z (existsb (ev_is TWrite) es) + 2 * Z.b2z (existsb (ev_is TEnsure) es) + 4 * Z.b2z (existsb (ev_is TRead) es) +
    8 * Z.b2z (existsb (ev_is TGive) es) + 16 * Z.b2z (existsb (ev_is TTake) es).
  Lemma flags_of_spec es : 0 <= flags_of es < 32 /\
    Z.testbit (flags_of es) FWrite = existsb (ev_is TWrite) es /\ Z.testbit (flags_of es) FEnsure = existsb (ev_is TEnsure) es /\
    Z.testbit (flags_of es) FRead = existsb (ev_is TRead) es /\ Z.testbit (flags_of es) FGive = existsb (ev_is TGive) es /\
    Z.testbit (flags_of es) FTake = existsb (ev_is TTake) es.
  Proof.
    unfold flags_of. destruct (existsb (ev_is TWrite) es), (existsb (ev_is TEnsure) es), (existsb (ev_is TRead) es),
      (existsb (ev_is TGive) es), (existsb (ev_is TTake) es); cbn [Z.b2z]; (split; [lia|]);
      (split; [reflexivity|]); (split; [reflexivity|]); (split; [reflexivity|]); (split; reflexivity).
  Qed.
  Lemma credit_range es : canon (credit_sum es mod P).
  Proof. unfold canon. apply Z.mod_pos_bound. reflexivity. Qed.
  Lemma flags_canon es : canon (flags_of es).
  Proof. destruct (flags_of_spec es) as [R _]. unfold canon, P. lia. Qed.

  Lemma ac_complete oac T h ad oo no od nd : EventRoot HR T h ->
    (forall e, In e (leaves T) -> fe_addr e = ad) ->
    (count_ty TWrite (leaves T) <= 1)%nat -> (count_ty TGive (leaves T) <= 1)%nat -> (count_ty TTake (leaves T) <= 1)%nat ->
    (forall e, In e (leaves T) -> event_agrees e oo no od nd) ->
    canon ad -> dig_ok oo -> dig_ok no -> dig_ok od -> dig_ok nd ->
    ac_proof HR own_policy oac (AcPi h ad (flags_of (leaves T)) oo no od nd (credit_sum (leaves T) mod P)).
  Proof.
    intros R AD CW CG CT EA Cad Koo Kno Kod Knd.
    set (X := fun T h => AcPi h ad (flags_of (leaves T)) oo no od nd (credit_sum (leaves T) mod P)).
    assert (WX : forall T h, EventRoot HR T h -> ac_wf (X T h)).
    { intros T' h' R'. split; [eapply event_root_ok; exact R'|]. split; [exact Cad|]. split; [apply flags_canon|].
      repeat (split; [assumption|]). apply credit_range. }
    assert (LF : forall e h, EventRoot HR (BLeaf e) h -> fe_addr e = ad -> event_agrees e oo no od nd ->
      exists x, leaf' ac_wf (ac_leaf HR) x /\ ac_hash x = h /\ ac_addr x = ad /\ ac_flags x = flags_of [e] /\ ac_cd x = credit_sum [e] mod P /\
        ac_no x = no /\ ac_od x = od /\ ac_nd x = nd /\ (ev_is TCredit e = false -> ac_oo x = oo)).
    { intros e h' R' Ea (G1 & G2 & G3 & G4 & G5 & G6). inversion R' as [? ? [(K1 & K2 & K3 & K4) Eh]|]; subst. unfold HRf in Eh. subst h'.
      exists (AcPi (H (delems (fe_owner e) ++ [fe_ty e; fe_addr e] ++ delems (fe_value e))) (fe_addr e) (flags_of [e]) (if ev_is TCredit e then fe_owner e else oo) no od nd (credit_sum [e] mod P)).
      assert (Koo' : dig_ok (if ev_is TCredit e then fe_owner e else oo)) by (destruct (ev_is TCredit e); assumption).
      split; [|cbn; do 7 (split; [reflexivity|]); intros Ec; rewrite Ec; reflexivity].
      split. { split; [apply H_ok|]. split; [exact K3|]. split; [apply flags_canon|]. repeat (split; [assumption|]). apply credit_range. }
      exists (fe_owner e), (fe_ty e), (fe_value e). split; [exact K1|]. split; [exact K2|]. split; [exact K4|].
      destruct (flags_of_spec [e]) as (F0 & F1 & F2 & F3 & F4 & F5). unfold flag. cbn [ac_flags].
      assert (Y : forall t, existsb (ev_is t) [e] = (fe_ty e =? t)) by (intros t; cbn; unfold ev_is; rewrite orb_false_r; reflexivity).
      rewrite Y in F1, F2, F3, F4, F5. cbn zeta.
      split; [exact F0|]. split; [exact F1|]. split; [exact F3|]. split; [exact F2|]. split; [exact F4|]. split; [exact F5|].
      cbn [ac_oo ac_no ac_od ac_nd ac_cd ac_hash ac_addr]. unfold maybe_connect, ev_is.
      split. { intros X1. destruct (fe_ty e =? TCredit) eqn:E5; [reflexivity|]. rewrite orb_false_r in X1.
        apply orb_true_iff in X1 as [X1|X1]; apply Z.eqb_eq in X1; [apply G1|apply G4]; exact X1. }
      split. { intros X1. apply Z.eqb_eq in X1. destruct (fe_ty e =? TCredit) eqn:E5; [apply Z.eqb_eq in E5; rewrite X1 in E5; discriminate|]. apply G5, X1. }
      split. { intros X1. apply Z.eqb_eq in X1. apply G5, X1. }
      split. { intros X1. apply Z.eqb_eq in X1. apply G4, X1. }
      split. { intros X1. apply Z.eqb_eq in X1. apply G3, X1. }
      split. { intros X1. apply orb_true_iff in X1 as [X1|X1]; apply Z.eqb_eq in X1; [apply G1|apply G2]; exact X1. }
      split; [|reflexivity]. unfold credit_sum, ev_credit, ev_is. cbn [fold_right].
      destruct (fe_ty e =? TCredit) eqn:E5; [|split; [unfold MAX_LEAF_TRANSFER; lia|split; [left; reflexivity|reflexivity]]].
      apply Z.eqb_eq in E5. destruct (G6 E5) as [G7 G8]. split; [exact G7|]. split; [exact G8|].
      destruct G8 as [-> | ->]; cbn; f_equal; lia. }
    assert (BR : forall Tl Tr hl hr l r (h' : dig) partial, EventRoot HR Tl hl -> EventRoot HR Tr hr ->
      (forall e, In e (leaves Tl) -> event_agrees e oo no od nd) -> True ->
      ac_hash l = hl -> ac_hash r = hr -> ac_addr l = ad -> ac_addr r = ad -> ac_flags l = flags_of (leaves Tl) -> ac_flags r = flags_of (leaves Tr) ->
      ac_cd l = credit_sum (leaves Tl) mod P -> ac_cd r = credit_sum (leaves Tr) mod P ->
      (existsb (ev_is TWrite) (leaves Tl) || (existsb (ev_is TGive) (leaves Tl) || existsb (ev_is TTake) (leaves Tl)) = true -> ac_oo l = oo) -> ac_no l = no -> ac_od l = od -> ac_nd l = nd ->
      (existsb (ev_is TWrite) (leaves Tr) || (existsb (ev_is TGive) (leaves Tr) || existsb (ev_is TTake) (leaves Tr)) = true -> ac_oo r = oo) -> ac_no r = no -> ac_od r = od -> ac_nd r = nd ->
      h' = (if partial : bool then hl else H (delems hl ++ delems hr)) ->
      (partial = false -> forall t, t = TWrite \/ t = TGive \/ t = TTake -> (count_ty t (leaves Tl ++ leaves Tr) <= 1)%nat) ->
      ac_branch HR l r (X (if partial then Tl else BNode Tl Tr) h')).
    { intros Tl Tr hl hr l r h' partial Rl Rr _ _ E1 E2 E3 E4 E5 E6 E7 E8 E9 E10 E11 E12 E13 E14 E15 E16 -> CC.
      destruct (flags_of_spec (leaves Tl)) as (L0 & L1 & L2 & L3 & L4 & L5).
      destruct (flags_of_spec (leaves Tr)) as (R0 & R1 & R2 & R3 & R4 & R5).
      exists partial. cbn zeta.
      split; [eexists; split; [reflexivity|]; rewrite E1, E2; destruct partial; reflexivity|].
      split; [symmetry; exact E3|]. split; [destruct partial; cbn; symmetry; exact E4|].
      unfold flag, owner_flag, flag, maybe_connect. destruct partial; cbn [ac_clear X ac_flags ac_oo ac_no ac_od ac_nd ac_cd leaves].
      - rewrite E5, !Z.testbit_0_l. cbn [Z.b2z orb]. rewrite !Z.add_0_r, !orb_false_r, L1, L4, L5, E10, E11, E12, E14, E15, E16.
        split; [exact L0|]. split; [exact L0|]. split; [unfold FCOUNT; lia|].
        repeat (split; [reflexivity|]).
        split; [intros Q; symmetry; apply E9, Q|]. split; [discriminate|]. split; [reflexivity|]. split; [discriminate|]. split; [reflexivity|]. split; [discriminate|].
        split; [reflexivity|]. split; [discriminate|]. rewrite E7. symmetry. apply fadd_0_r, credit_range.
      - destruct (flags_of_spec (leaves Tl ++ leaves Tr)) as (F0 & F1 & F2 & F3 & F4 & F5).
        rewrite E5, E6, F1, F2, F3, F4, F5, L1, L2, L3, L4, L5, R1, R2, R3, R4, R5, !existsb_app.
        split; [exact F0|]. split; [exact L0|]. split; [exact R0|].
        assert (NN : forall t, t = TWrite \/ t = TGive \/ t = TTake ->
          Z.b2z (existsb (ev_is t) (leaves Tl)) + Z.b2z (existsb (ev_is t) (leaves Tr)) = Z.b2z (existsb (ev_is t) (leaves Tl) || existsb (ev_is t) (leaves Tr))).
        { intros t Ht. pose proof (CC eq_refl t Ht) as C. rewrite count_app in C.
          assert (POS : forall es, existsb (ev_is t) es = true -> (1 <= count_ty t es)%nat).
          { intros es Q. apply existsb_exists in Q as (e & I & Q). unfold count_ty.
            assert (In e (List.filter (ev_is t) es)) by (apply filter_In; auto). destruct (List.filter (ev_is t) es); [contradiction|cbn; lia]. }
          destruct (existsb (ev_is t) (leaves Tl)) eqn:Q1, (existsb (ev_is t) (leaves Tr)) eqn:Q2; cbn; try reflexivity.
          exfalso. specialize (POS _ Q1) as p1. specialize (POS _ Q2) as p2. lia. }
        split; [apply NN; auto|]. split; [apply NN; auto|]. split; [apply NN; auto|]. split; [reflexivity|]. split; [reflexivity|].
        rewrite E10, E11, E12, E14, E15, E16.
        split; [intros Q; symmetry; apply E9, Q|]. split; [intros Q; symmetry; apply E13, Q|].
        repeat (split; [reflexivity|]).
        rewrite E7, E8, credit_sum_app. unfold fadd. apply Zplus_mod. }
    assert (NC : forall e, existsb (ev_is TWrite) [e] || (existsb (ev_is TGive) [e] || existsb (ev_is TTake) [e]) = true -> ev_is TCredit e = false).
    { intros e. cbn. rewrite !orb_false_r. unfold ev_is. intros Q. apply Z.eqb_neq. intros E. rewrite E in Q. discriminate Q. }
    exists (VBranch CAcc). split; [reflexivity|]. change (acc CAcc ac_wf (ac_leaf HR) (ac_branch HR) oac (VBranch CAcc) (VBranch CAcc, X T h)).
    destruct T as [e|Tl Tr].
    - destruct (LF e h R ltac:(apply AD; left; reflexivity) ltac:(apply EA; left; reflexivity)) as (x & [Wx Lx] & Y1 & Y2 & Y3 & Y4 & Y5 & Y6 & Y7 & Y8).
      apply (acc_branch _ _ _ _ _ _ true true x x); [apply acc_leaf; assumption|apply acc_leaf; assumption|apply WX, R|].
      apply (BR (BLeaf e) (BLeaf e) h h x x h true); auto. all: intros; try discriminate.
    - assert (G : forall T h, EventRoot HR T h -> (forall e, In e (leaves T) -> fe_addr e = ad) ->
        (forall t, t = TWrite \/ t = TGive \/ t = TTake -> (count_ty t (leaves T) <= 1)%nat) ->
        (forall e, In e (leaves T) -> event_agrees e oo no od nd) ->
        exists t x, WfTree (leaf' ac_wf (ac_leaf HR)) (branch' ac_wf (ac_branch HR)) t x /\
          ac_hash x = h /\ ac_addr x = ad /\ ac_flags x = flags_of (leaves T) /\ ac_cd x = credit_sum (leaves T) mod P /\
          (existsb (ev_is TWrite) (leaves T) || (existsb (ev_is TGive) (leaves T) || existsb (ev_is TTake) (leaves T)) = true -> ac_oo x = oo) /\
          ac_no x = no /\ ac_od x = od /\ ac_nd x = nd /\
          (match T with BNode _ _ => (exists tl tr, t = BNode tl tr) /\ x = X T h | _ => True end)).
      { clear Tl Tr h R AD CW CG CT EA. induction T as [e|Tl IHl Tr IHr]; intros h R AD CC EA.
        - destruct (LF e h R ltac:(apply AD; left; reflexivity) ltac:(apply EA; left; reflexivity)) as (x & [Wx Lx] & Y1 & Y2 & Y3 & Y4 & Y5 & Y6 & Y7 & Y8).
          exists (BLeaf x), x. split; [constructor; split; assumption|]. repeat (split; [auto|]). exact I.
        - inversion R as [|? ? hl hr ? RL RR NP]; subst. cbn [leaves] in *.
          assert (CCl : forall t, t = TWrite \/ t = TGive \/ t = TTake -> (count_ty t (leaves Tl) <= 1)%nat) by (intros t Q; specialize (CC t Q); rewrite count_app in CC; lia).
          assert (CCr : forall t, t = TWrite \/ t = TGive \/ t = TTake -> (count_ty t (leaves Tr) <= 1)%nat) by (intros t Q; specialize (CC t Q); rewrite count_app in CC; lia).
          destruct (IHl _ RL ltac:(intros; apply AD, in_or_app; auto) CCl ltac:(intros; apply EA, in_or_app; auto)) as (tl & l & Wl & A1 & A2 & A3 & A4 & A5 & A6 & A7 & A8 & _).
          destruct (IHr _ RR ltac:(intros; apply AD, in_or_app; auto) CCr ltac:(intros; apply EA, in_or_app; auto)) as (tr & r & Wr & B1 & B2 & B3 & B4 & B5 & B6 & B7 & B8 & _).
          exists (BNode tl tr), (X (BNode Tl Tr) h). split; [|repeat (split; [reflexivity|]); split; [exists tl, tr; reflexivity|reflexivity]].
          econstructor; [exact Wl|exact Wr|]. split; [apply WX, R|].
          apply (BR Tl Tr hl hr l r h false); auto. all: intros; try (apply EA, in_or_app; auto). }
      destruct (G (BNode Tl Tr) h R AD ltac:(intros t [-> | [-> | ->]]; assumption) EA) as (t & x & W & _ & _ & _ & _ & _ & _ & _ & _ & (tl & tr & ->) & ->).
      apply (tree_acc_gen CAcc _ _ _ oac _ _ W).
  Qed.

  (** ** match_delta *)
  Lemma md_leaf_complete oac height c he hs : legal_transition height c -> EventRoot HR (oc_events c) he -> change_hash HR c hs ->
    canon height -> md_leaf HR own_policy oac (MdPi he hs height) /\ md_wf (MdPi he hs height).
  Proof.
    intros (Ko & Kn & Ka & AD & CW & CG & CT & EA & DW & GT & NG & G & Cr & U0 & U1 & U2) R (ho & hn & Ho & Hn & Hs) Kh.
    destruct c as [ad T [oo ou oc od] [no nu nc nd]]. cbn [oc_addr oc_events oc_old oc_new o_owner o_updated o_credits o_data] in *.
    destruct Ko as (Koo & Kou & Koc & Kod), Kn as (Kno & Knu & Knc & Knd). cbn in Koo, Kou, Koc, Kod, Kno, Knu, Knc, Knd.
    split; [|split; [eapply event_root_ok; exact R|split; [rewrite Hs; apply H_ok|exact Kh]]].
    exists (AcPi he ad (flags_of (leaves T)) oo no od nd (credit_sum (leaves T) mod P)), oo, no, od, nd, ou, oc, nc.
    split; [eapply ac_complete; eassumption|]. do 7 (split; [assumption|]). cbn [md_event md_state md_height ac_hash ac_addr ac_flags ac_cd].
    unfold maybe_connect. cbn [ac_oo ac_no ac_od ac_nd].
    split; [|do 5 (split; [reflexivity|]); rewrite Cr; f_equal; lia].
    destruct (flags_of_spec (leaves T)) as (F0 & F1 & F2 & F3 & F4 & F5).
    assert (HW : Z.testbit (flags_of (leaves T)) FWrite = true <-> has TWrite (leaves T)) by (rewrite F1; apply has_existsb).
    assert (HG : Z.testbit (flags_of (leaves T)) FGive = true <-> has TGive (leaves T)) by (rewrite F4; apply has_existsb).
    assert (HT : Z.testbit (flags_of (leaves T)) FTake = true <-> has TTake (leaves T)) by (rewrite F5; apply has_existsb).
    unfold md_core. cbn zeta. split; [exact F0|].
    split. { apply Bool.eq_iff_eq_true. rewrite HG, HT. exact GT. }
    split. { apply orb_true_iff. destruct (decide (od = nd)) as [E|E]; [left; apply dig_eqb_iff, E|right; apply HW, DW, E]. }
    assert (Zz : forall d, d <> dzero -> hash_is_zero d = false) by (intros d N; apply not_true_iff_false; rewrite hash_is_zero_iff; exact N).
    assert (Zd : forall a b, a <> b -> dig_eqb a b = false) by (intros a b N; apply not_true_iff_false; rewrite dig_eqb_iff; exact N).
    assert (MODE : b2 (hash_is_zero oo) + b2 (hash_is_zero no) + b2 (dig_eqb oo no) = 1 /\
                   b2 (hash_is_zero oo) + b2 (hash_is_zero no) = b2 (Z.testbit (flags_of (leaves T)) FGive)).
    { destruct (Z.testbit (flags_of (leaves T)) FGive) eqn:EG.
      - destruct (G (proj1 HG eq_refl)) as [N [E|E]]; subst; rewrite (Zd _ _ N).
        + rewrite (proj2 (hash_is_zero_iff dzero) eq_refl), (Zz no) by congruence. split; reflexivity.
        + rewrite (proj2 (hash_is_zero_iff dzero) eq_refl), (Zz oo) by congruence. split; reflexivity.
      - destruct NG as [E N]; [intros X; apply HG in X; congruence|]. subst no. rewrite (Zz oo N), (proj2 (dig_eqb_iff oo oo) eq_refl). split; reflexivity. }
    split; [apply MODE|]. split; [apply MODE|].
    exists ho, hn. split; [exact Ho|]. split; [|exact Hs].
    assert (EU : nu = (if hash_is_zero no then 0 else if Z.testbit (flags_of (leaves T)) FGive || Z.testbit (flags_of (leaves T)) FWrite || negb (oc =? nc) then height else ou)).
    { destruct (hash_is_zero no) eqn:E0; [apply U0, hash_is_zero_iff, E0|].
      assert (Nz : no <> dzero) by (intros X; apply hash_is_zero_iff in X; congruence).
      destruct (Z.testbit (flags_of (leaves T)) FGive || Z.testbit (flags_of (leaves T)) FWrite || negb (oc =? nc)) eqn:E1.
      - apply U1; [exact Nz|]. apply orb_true_iff in E1 as [E1|E1]; [apply orb_true_iff in E1 as [E1|E1]; [left; apply HG, E1|right; left; apply HW, E1]|].
        right; right. apply negb_true_iff, Z.eqb_neq in E1. exact E1.
      - apply orb_false_iff in E1 as [E1 E3]. apply orb_false_iff in E1 as [E1 E2]. apply negb_false_iff, Z.eqb_eq in E3.
        apply U2; [exact Nz|rewrite <- HG; congruence|rewrite <- HW; congruence|exact E3]. }
    rewrite <- EU. exact Hn.
  Qed.
  Lemma tree_root_ok {A} (leaf : A -> dig -> Prop) T h : (forall a h, leaf a h -> dig_ok h) -> TreeRoot leaf pair T h -> dig_ok h.
  Proof. intros L R. inversion R; subst; [eapply L; eassumption|rewrite H2; apply H_ok]. Qed.
  Lemma md_complete oac omd height ms he hs : TreeRoot (fun c => EventRoot HR (oc_events c)) pair ms he -> TreeRoot (change_hash HR) pair ms hs ->
    Forall (legal_transition height) (leaves ms) -> canon height -> md_proof HR own_policy oac omd (MdPi he hs height).
  Proof.
    intros Re Rs F Kh. exists (VBranch CMatch). split; [reflexivity|].
    assert (Kch : forall c h, change_hash HR c h -> dig_ok h) by (intros c h' (? & ? & _ & _ & ->); apply H_ok).
    assert (Kev : forall c h, EventRoot HR (oc_events c) h -> dig_ok h) by (intros c h'; apply event_root_ok).
    destruct ms as [c|ml mr].
    - inversion Re; subst. inversion Rs; subst. inversion F; subst.
      destruct (md_leaf_complete oac height c he hs) as [L W]; try assumption.
      apply acc_dup; [exact W|exact L|]. exists true. cbn. split; [apply partial_dup; eapply Kev; eassumption|]. split; [apply partial_dup; eapply Kch; eassumption|auto].
    - assert (G : forall ms he hs, TreeRoot (fun c => EventRoot HR (oc_events c)) pair ms he -> TreeRoot (change_hash HR) pair ms hs ->
        Forall (legal_transition height) (leaves ms) -> exists t, WfTree (leaf' md_wf (md_leaf HR own_policy oac)) (branch' md_wf (md_branch HR)) t (MdPi he hs height) /\
          (match ms with BNode _ _ => exists a b, t = BNode a b | _ => True end)).
      { clear ml mr he hs Re Rs F. induction ms as [c|ml IHl mr IHr]; intros he hs Re Rs F.
        - inversion Re; subst. inversion Rs; subst. inversion F; subst.
          destruct (md_leaf_complete oac height c he hs) as [L W]; try assumption.
          exists (BLeaf (MdPi he hs height)). split; [|exact I]. constructor. split; assumption.
        - pose proof (tree_root_ok _ _ _ Kev Re) as Oe. pose proof (tree_root_ok _ _ _ Kch Rs) as Os.
          inversion Re as [|? ? el er ? REl REr NE]; subst. inversion Rs as [|? ? sl sr ? RSl RSr NS]; subst.
          cbn in F. apply List.Forall_app in F as [Fl Fr].
          destruct (IHl _ _ REl RSl Fl) as (tl & Wl & _). destruct (IHr _ _ REr RSr Fr) as (tr & Wr & _).
          exists (BNode tl tr). split; [|eauto]. econstructor; [exact Wl|exact Wr|].
          split; [split; [exact Oe|split; [exact Os|exact Kh]]|].
          exists false. cbn. split; [exists he; auto|]. split; [exists hs; auto|auto]. }
      destruct (G _ _ _ Re Rs F) as (t & W & a & b & ->). apply (tree_acc_gen CMatch _ _ _ omd _ _ W).
  Qed.

  (** ** state_update *)
  Lemma half_exists x : canon x -> exists q, half_of x q.
  Proof.
    intros C. exists ((x * ((P + 1) / 2)) mod P). split; [unfold canon; apply Z.mod_pos_bound; reflexivity|].
    rewrite Z.mul_mod_idemp_r by (vm_compute; discriminate).
    replace (2 * (x * ((P + 1) / 2))) with (x + x * P) by (change ((P + 1) / 2) with 9223372034707292161; unfold P; lia).
    rewrite Z_mod_plus_full. apply Z.mod_small, C.
  Qed.
  Lemma su_complete h : forall b t, perfect h t ->
    (forall s, In s (leaves t) -> sl_touched s = false -> sl_old s = sl_new s) ->
    (forall i s, nth_error (leaves t) i = Some s -> sl_touched s = true -> sl_addr s = (b * 2 ^ Z.of_nat h + Z.of_nat i) mod P /\ sl_addr s <> P - 1) ->
    Forall (fun s => dig_ok (sl_old s) /\ dig_ok (sl_new s)) (leaves t) ->
    exists x, su_acc HR h x /\ TreeRoot eq pair (tmap sl_old t) (su_old x) /\ TreeRoot eq pair (tmap sl_new t) (su_new x) /\
      (exists ts, ORoot (sleaf_hash HR) pair ts (su_sp x) (su_sum x) /\ oleaves ts = List.filter sl_touched (leaves t)) /\
      su_addr x = (if su_sp x then b mod P else P - 1) /\ su_wf x.
  Proof.
    assert (PP : 0 < P) by reflexivity.
    induction h as [|h IH]; intros b [s|tl tr]; cbn [perfect]; try contradiction.
    - intros _ Un Ad Ok. inversion Ok as [|? ? [Ko Kn] _]; subst.
      destruct s as [tch a o n]. cbn [leaves] in *.
      assert (Ea : tch = true -> a = b mod P /\ a <> P - 1).
      { intros E. destruct (Ad 0%nat _ eq_refl E) as [X1 X2]. cbn in X1, X2. split; [|exact X2]. rewrite X1. f_equal. lia. }
      assert (Kx : canon (b mod P)) by (apply Z.mod_pos_bound; exact PP).
      exists (SuPi tch (if tch then H ([b mod P] ++ delems o ++ delems n) else dzero) o n (if tch then b mod P else P - 1)).
      assert (W : su_wf (SuPi tch (if tch then H ([b mod P] ++ delems o ++ delems n) else dzero) o n (if tch then b mod P else P - 1))).
      { split; [cbn; destruct tch; [apply H_ok|apply dzero_ok]|]. split; [exact Ko|]. split; [exact Kn|]. cbn. destruct tch; [exact Kx|unfold canon; lia]. }
      split; [|split; [constructor; reflexivity|split; [constructor; reflexivity|split; [|split; [destruct tch; reflexivity|exact W]]]]].
      + split; [exact W|]. split; [cbn; destruct tch; unfold at_least_one_true; [apply orb_true_r|reflexivity]|].
        split. { cbn. destruct tch; [|reflexivity]. destruct (Ea eq_refl) as [<- N]. symmetry. apply negb_true_iff, Z.eqb_neq.
          assert (Ka : canon a) by (rewrite (proj1 (Ea eq_refl)); exact Kx). unfold fadd. unfold canon in Ka. rewrite Z.mod_small by lia. lia. }
        split. { cbn. unfold at_least_one_true. apply orb_true_iff. destruct tch; [right; reflexivity|left]. apply dig_eqb_iff. apply (Un _ (or_introl eq_refl)). reflexivity. }
        eexists. split; [reflexivity|]. cbn. destruct tch; reflexivity.
      + destruct tch; [exists (Some (BLeaf (SLeaf true a o n)))|exists None]; (split; [|reflexivity]); cbn.
        * split; [reflexivity|]. constructor. destruct (Ea eq_refl) as [-> _]. reflexivity.
        * split; reflexivity.
    - intros [Pl Pr] Un Ad Ok. cbn [leaves] in *. apply List.Forall_app in Ok as [Okl Okr].
      rewrite Nat2Z.inj_succ, Z.pow_succ_r in Ad by lia.
      destruct (IH (2 * b) tl Pl) as (l & Al & Ol & Nl & (tsl & Rl & Fl) & El & Wl).
      { intros s I. apply Un, in_or_app. auto. }
      { intros i s Hi Ht. destruct (Ad i s) as [A1 A2]; [rewrite nth_error_app1; [exact Hi|apply nth_error_Some; congruence]|exact Ht|].
        split; [rewrite A1; f_equal; ring|exact A2]. }
      { exact Okl. }
      destruct (IH (2 * b + 1) tr Pr) as (r & Ar & Or & Nr & (tsr & Rr & Fr) & Er & Wr).
      { intros s I. apply Un, in_or_app. auto. }
      { intros i s Hi Ht. destruct (Ad (length (leaves tl) + i)%nat s) as [A1 A2]; [rewrite nth_error_app2, Nat.add_comm, Nat.add_sub by lia; exact Hi|exact Ht|].
        split; [|exact A2]. rewrite A1. f_equal. rewrite Nat2Z.inj_add, (perfect_length h tl Pl), Nat2Z.inj_pow. change (Z.of_nat 2) with 2. ring. }
      { exact Okr. }
      assert (Kx : canon (b mod P)) by (apply Z.mod_pos_bound; exact PP).
      destruct (hof_total (su_sp l) (su_sum l) (su_sp r) (su_sum r)) as [hs Hs].
      assert (HL : exists lp, half_of (su_addr l) lp /\ (su_sp l = true -> lp = b mod P)).
      { destruct (su_sp l) eqn:E.
        - exists (b mod P). split; [|auto]. split; [exact Kx|]. rewrite El, Z.mul_mod_idemp_r by lia. reflexivity.
        - destruct (half_exists (su_addr l)) as [q Q]; [apply Wl|]. exists q. split; [exact Q|discriminate]. }
      assert (HRt : exists rp, half_of ((su_addr r - 1) mod P) rp /\ (su_sp r = true -> rp = b mod P)).
      { destruct (su_sp r) eqn:E.
        - exists (b mod P). split; [|auto]. split; [exact Kx|]. rewrite Er, Z.mul_mod_idemp_r by lia.
          rewrite Zminus_mod_idemp_l. f_equal. lia.
        - destruct (half_exists ((su_addr r - 1) mod P)) as [q Q]; [apply Z.mod_pos_bound; exact PP|]. exists q. split; [exact Q|discriminate]. }
      destruct HL as (lp & HL & ELp), HRt as (rp & HRt & ERp).
      set (x := SuPi (su_sp l || su_sp r) hs (H (delems (su_old l) ++ delems (su_old r))) (H (delems (su_new l) ++ delems (su_new r)))
                     (if su_sp l || su_sp r then b mod P else P - 1)).
      assert (W : su_wf x).
      { split; [exact (hof_wf _ _ _ _ _ (proj1 Wl) (proj1 Wr) Hs)|]. split; [apply H_ok|]. split; [apply H_ok|]. cbn. destruct (su_sp l || su_sp r); [exact Kx|unfold canon; lia]. }
      exists x. split; [|split; [econstructor; [exact Ol|exact Or|reflexivity]|split; [econstructor; [exact Nl|exact Nr|reflexivity]|split; [|split; [reflexivity|exact W]]]]].
      + exists l, r. split; [exact Al|]. split; [exact Ar|]. split; [exact W|].
        split; [reflexivity|]. split; [exact Hs|]. split; [eexists; split; reflexivity|]. split; [eexists; split; reflexivity|].
        exists lp, rp. split; [exact HL|]. split; [exact HRt|]. split.
        * intros E. apply andb_true_iff in E as [E1 E2]. rewrite (ELp E1), (ERp E2). reflexivity.
        * cbn. destruct (su_sp l) eqn:E1; cbn; [rewrite ELp by reflexivity; reflexivity|].
          destruct (su_sp r) eqn:E2; cbn; [rewrite ERp by reflexivity; reflexivity|]. rewrite El. reflexivity.
      + exists (ojoin tsl tsr). split; [exact (hof_root HR (sleaf_hash HR) _ _ _ _ _ _ _ (proj1 Wl) (proj1 Wr) Rl Rr Hs)|].
        rewrite oleaves_ojoin, Fl, Fr, List.filter_app. reflexivity.
  Qed.
End Total.
