(** Trees behind the event, merge, program and transaction proofs. *)
From stdpp Require Import prelude.
From Verif Require Import Field RecModel RecSpec RecProofs.
Open Scope Z_scope.

(** ** interleavings *)
Lemma Interleave_prefix_l {A} (x a b m : list A) : Interleave a b m -> Interleave (x ++ a) b (x ++ m).
Proof. intros I. induction x; cbn; [exact I|constructor; exact IHx]. Qed.
Lemma Interleave_prefix_r {A} (x a b m : list A) : Interleave a b m -> Interleave a (x ++ b) (x ++ m).
Proof. intros I. induction x; cbn; [exact I|constructor; exact IHx]. Qed.
Lemma Interleave_concat {A B} (f : A -> list B) a b m : Interleave a b m ->
  Interleave (concat (map f a)) (concat (map f b)) (concat (map f m)).
Proof. induction 1; cbn; [constructor|apply Interleave_prefix_l; assumption|apply Interleave_prefix_r; assumption]. Qed.
Lemma Interleave_Forall2 {A B} (R : A -> B -> Prop) a b m : Interleave a b m -> forall a' b',
  Forall2 R a a' -> Forall2 R b b' -> exists m', Interleave a' b' m' /\ Forall2 R m m'.
Proof.
  induction 1 as [|x a b m I IH|x a b m I IH]; intros a' b' Fa Fb.
  - inversion Fa; inversion Fb; subst. exists []. split; constructor.
  - inversion Fa; subst. destruct (IH _ _ H3 Fb) as (m' & I' & F'). exists (y :: m'). split; constructor; assumption.
  - inversion Fb; subst. destruct (IH _ _ Fa H3) as (m' & I' & F'). exists (y :: m'). split; constructor; assumption.
Qed.
Lemma Interleave_assoc {A} (m m' k : list A) : Interleave m m' k -> forall l m1, Interleave l m1 m ->
  exists n, Interleave m1 m' n /\ Interleave l n k.
Proof.
  induction 1 as [|x a b m I IH|x a b m I IH]; intros l m1 J.
  - inversion J; subst. exists []. split; constructor.
  - inversion J; subst.
    + destruct (IH _ _ H2) as (n & N1 & N2). exists n. split; [exact N1|constructor; exact N2].
    + destruct (IH _ _ H2) as (n & N1 & N2). exists (x :: n). split; constructor; assumption.
  - destruct (IH _ _ J) as (n & N1 & N2). exists (x :: n). split; constructor; assumption.
Qed.
Lemma Shuffle_app {A} (ls ls' : list (list A)) m m' k : Shuffle ls m -> Shuffle ls' m' -> Interleave m m' k -> Shuffle (ls ++ ls') k.
Proof.
  intros S. revert k. induction S as [|l ls m1 m S IH J]; intros k S' I; cbn.
  - assert (E : k = m'). { clear -I. remember [] as a. induction I; subst; try congruence. f_equal. auto. } subst k. exact S'.
  - destruct (Interleave_assoc _ _ _ I _ _ J) as (n & N1 & N2). econstructor; [apply IH; [exact S'|exact N1]|exact N2].
Qed.
Lemma Shuffle_one {A} (l : list A) : Shuffle [l] l.
Proof. econstructor; [constructor|apply Interleave_nil_r]. Qed.
Lemma Shuffle_in {A} (ls : list (list A)) m x : Shuffle ls m -> (In x m <-> exists l, In l ls /\ In x l).
Proof.
  induction 1 as [|l ls m m' S IH I]; cbn.
  - split; [intros []|intros (l & [] & _)].
  - pose proof (Interleave_perm _ _ _ I) as Pm. split.
    + intros X. apply (Permutation_in _ Pm) in X. apply in_app_or in X as [X|X]; [exists l; auto|].
      apply IH in X as (l' & A1 & A2). exists l'. auto.
    + intros (l' & [<-|Hl] & X); apply (Permutation_in _ (Permutation_sym Pm)), in_or_app; [left; exact X|right].
      apply IH. exists l'. auto.
Qed.
Lemma Shuffle_perm {A} (ls : list (list A)) m : Shuffle ls m -> Permutation m (concat ls).
Proof. induction 1 as [|l ls m m' S IH I]; [constructor|]. cbn. rewrite (Interleave_perm _ _ _ I), IH. reflexivity. Qed.

Lemma leaves_tmap {A B} (f : A -> B) t : leaves (tmap f t) = map f (leaves t).
Proof. induction t as [|l IHl r IHr]; [reflexivity|]. cbn. rewrite map_app, IHl, IHr. reflexivity. Qed.
Lemma leaves_nonnil {A} (t : btree A) : leaves t <> [].
Proof. induction t; cbn; [discriminate|]. intros E. apply app_eq_nil in E as [E _]. contradiction. Qed.

Section Trees.
  Variable HR : list Z -> dig -> Prop.
  Notation pair := (pair_hash HR).

  Lemma pair_cf a b c d h : hash_cf HR -> pair a b h -> pair c d h -> a = c /\ b = d.
  Proof. intros CF X Y. apply pair_inj. exact (CF _ _ _ X Y). Qed.
  Lemma fevent_no_pair e h a b : hash_cf HR -> fevent_hash HR e h -> pair a b h -> False.
  Proof. intros CF [_ X] Y. pose proof (CF _ _ _ X Y) as E. destruct (fe_owner e), (fe_value e), a, b. discriminate E. Qed.
  Lemma fevent_hash_cf e e' h : hash_cf HR -> fevent_hash HR e h -> fevent_hash HR e' h -> e = e'.
  Proof.
    intros CF [_ X] [_ Y]. pose proof (CF _ _ _ X Y) as E. destruct e as [[] ? ? []], e' as [[] ? ? []]. cbn in E.
    injection E as -> -> -> -> -> -> -> -> -> ->. reflexivity.
  Qed.

  Section Gen.
    Context {A : Type} (leaf : A -> dig -> Prop).
    Hypothesis CF : hash_cf HR.
    Hypothesis sep : forall a h x y, leaf a h -> pair x y h -> False.
    Lemma view_blocks v h : TreeRoot eq pair v h -> forall T, TreeRoot leaf pair T h ->
      exists bs, Forall2 (fun d b => TreeRoot leaf pair b d) (leaves v) bs /\ leaves T = concat (map leaves bs).
    Proof.
      induction 1 as [a h ->|vl vr hl hr h Rl IHl Rr IHr N]; intros T RT.
      - exists [T]. split; [constructor; [exact RT|constructor]|]. cbn. rewrite app_nil_r. reflexivity.
      - inversion RT as [a h' La|Tl Tr hl' hr' h' RTl RTr N']; subst; [exfalso; eapply sep; eassumption|].
        destruct (pair_cf _ _ _ _ _ CF N N') as [-> ->].
        destruct (IHl _ RTl) as (bl & Fl & El). destruct (IHr _ RTr) as (br & Fr & Er).
        exists (bl ++ br). split; [apply Forall2_app; assumption|]. cbn. rewrite El, Er, map_app, concat_app. reflexivity.
    Qed.
    (** two trees with the same root are the same tree *)
    Hypothesis inj : forall a b h, leaf a h -> leaf b h -> a = b.
    Lemma root_inj T h : TreeRoot leaf pair T h -> forall T', TreeRoot leaf pair T' h -> T = T'.
    Proof.
      induction 1 as [a h La|Tl Tr hl hr h Rl IHl Rr IHr N]; intros T' R'; inversion R'; subst.
      - f_equal. eapply inj; eassumption.
      - exfalso; eapply sep; eassumption.
      - exfalso; eapply sep; eassumption.
      - destruct (pair_cf _ _ _ _ _ CF N H1) as [-> ->]. f_equal; auto.
    Qed.
  End Gen.
  Lemma plug {A} (leaf : A -> dig -> Prop) v h : TreeRoot eq pair v h -> forall bs,
    Forall2 (fun d b => TreeRoot leaf pair b d) (leaves v) bs ->
    exists T, TreeRoot leaf pair T h /\ leaves T = concat (map leaves bs).
  Proof.
    induction 1 as [a h ->|vl vr hl hr h Rl IHl Rr IHr N]; intros bs F.
    - cbn in F. inversion F as [|? b ? bs' Hb F']; subst. inversion F'; subst. exists b. split; [exact Hb|].
      cbn. rewrite app_nil_r. reflexivity.
    - cbn in F. apply Forall2_app_inv_l in F as (bl & br & Fl & Fr & ->).
      destruct (IHl _ Fl) as (Tl & RTl & El). destruct (IHr _ Fr) as (Tr & RTr & Er).
      exists (BNode Tl Tr). split; [econstructor; eassumption|]. cbn. rewrite El, Er, map_app, concat_app. reflexivity.
  Qed.
  Lemma oview_blocks {A} (leaf : A -> dig -> Prop) v p h T : hash_cf HR -> (forall a h x y, leaf a h -> pair x y h -> False) ->
    ORoot eq pair v p h -> ORoot leaf pair T p h ->
    exists bs, Forall2 (fun d b => TreeRoot leaf pair b d) (oleaves v) bs /\ oleaves T = concat (map leaves bs).
  Proof.
    intros CF sep. destruct v as [v|], T as [T|]; cbn; intros [-> X] [E Y]; try discriminate E.
    - apply (view_blocks leaf CF sep v h X T Y).
    - exists []. split; constructor.
  Qed.

  (** ** merge *)
  Notation mgleaf := (leaf' mg_wf (mg_leaf HR)). Notation mgbranch := (branch' mg_wf (mg_branch HR)).
  Lemma mg_views t x : WfTree mgleaf mgbranch t x -> exists ta tb tm,
    ORoot eq pair ta (mg_ap x) (mg_a x) /\ ORoot eq pair tb (mg_bp x) (mg_b x) /\ ORoot eq pair tm (mg_mp x) (mg_m x) /\
    Interleave (oleaves ta) (oleaves tb) (oleaves tm) /\ mg_wf x.
  Proof.
    induction 1 as [x [W (Za & Zb & Em & h & Hh & Eh)]|tl tr l r x Tl IHl Tr IHr [W (Ea & Eb & Em & Ha & Hb & Hm)]].
    - unfold at_least_one_true in Za, Zb. rewrite orb_true_iff, hash_is_zero_iff in Za, Zb.
      destruct W as (Wa & Wb & Wm).
      exists (if mg_ap x then Some (BLeaf (mg_a x)) else None), (if mg_bp x then Some (BLeaf (mg_b x)) else None),
        (ojoin (if mg_ap x then Some (BLeaf (mg_a x)) else None) (if mg_bp x then Some (BLeaf (mg_b x)) else None)).
      assert (Ra : ORoot eq pair (if mg_ap x then Some (BLeaf (mg_a x)) else None) (mg_ap x) (mg_a x)).
      { destruct (mg_ap x); cbn; [split; [reflexivity|constructor; reflexivity]|]. destruct Za as [->|]; [auto|discriminate]. }
      assert (Rb : ORoot eq pair (if mg_bp x then Some (BLeaf (mg_b x)) else None) (mg_bp x) (mg_b x)).
      { destruct (mg_bp x); cbn; [split; [reflexivity|constructor; reflexivity]|]. destruct Zb as [->|]; [auto|discriminate]. }
      split; [exact Ra|]. split; [exact Rb|]. split.
      + rewrite Em. eapply hof_root; [exact Wa|exact Wb|exact Ra|exact Rb|]. exists h. split; [exact Hh|exact Eh].
      + split; [|split; [exact Wa|split; [exact Wb|exact Wm]]]. rewrite oleaves_ojoin. destruct (mg_ap x), (mg_bp x); cbn; repeat constructor.
    - destruct IHl as (tal & tbl & tml & Ral & Rbl & Rml & Il & (Wal & Wbl & Wml)).
      destruct IHr as (tar & tbr & tmr & Rar & Rbr & Rmr & Ir & (War & Wbr & Wmr)).
      exists (ojoin tal tar), (ojoin tbl tbr), (ojoin tml tmr). rewrite Ea, Eb, Em.
      split; [exact (hof_root HR eq _ _ _ _ _ _ _ Wal War Ral Rar Ha)|]. split; [exact (hof_root HR eq _ _ _ _ _ _ _ Wbl Wbr Rbl Rbr Hb)|].
      split; [exact (hof_root HR eq _ _ _ _ _ _ _ Wml Wmr Rml Rmr Hm)|].
      split; [|exact W]. rewrite !oleaves_ojoin. apply Interleave_app; assumption.
  Qed.
  Lemma merge_sound {A} (leaf : A -> dig -> Prop) t x : hash_cf HR -> (forall a h x y, leaf a h -> pair x y h -> False) ->
    WfTree mgleaf mgbranch t x -> forall TA TB,
    ORoot leaf pair TA (mg_ap x) (mg_a x) -> ORoot leaf pair TB (mg_bp x) (mg_b x) ->
    exists TM, ORoot leaf pair TM (mg_mp x) (mg_m x) /\ Interleave (oleaves TA) (oleaves TB) (oleaves TM).
  Proof.
    intros CF sep W TA TB RA RB. destruct (mg_views _ _ W) as (ta & tb & tm & Ra & Rb & Rm & I & _).
    destruct (oview_blocks leaf ta _ _ TA CF sep Ra RA) as (ba & Fa & Ea).
    destruct (oview_blocks leaf tb _ _ TB CF sep Rb RB) as (bb & Fb & Eb).
    destruct (Interleave_Forall2 _ _ _ _ I _ _ Fa Fb) as (bm & Im & Fm).
    pose proof (Interleave_concat leaves _ _ _ Im) as Ic. rewrite Ea, Eb.
    destruct tm as [tm|].
    - destruct Rm as [Em Rm]. destruct (plug leaf _ _ Rm _ Fm) as (TM & RTM & EM). exists (Some TM). cbn. rewrite EM. auto.
    - cbn in Fm. inversion Fm; subst. destruct Rm as [Em Rm]. exists None. cbn. auto.
  Qed.

  (** ** event roots *)
  Lemma ev_tree t x : WfTree (leaf' ev_wf (ev_leaf HR)) (branch' ev_wf (ev_branch HR)) t x ->
    exists T, EventRoot HR T (ev_hash x) /\ EventVmRoot HR T (ev_vm x) /\ Forall (fun e => fe_owner e = ev_owner x) (leaves T) /\ ev_wf x.
  Proof.
    induction 1 as [x [W (ty & ad & va & Ct & Ca & Cv & Eh & Ev)]|tl tr l r x Tl IHl Tr IHr [W (partial & (c1 & P1 & E1) & (c2 & P2 & E2) & O1 & O2)]].
    - exists (BLeaf (FEvent (ev_owner x) ty ad va)). split; [constructor; split; [split; [apply W|split; [exact Ct|split; [exact Ca|exact Cv]]]|exact Eh]|].
      split; [constructor|split; [repeat constructor|exact W]].
      apply byte_wise_hash_spec in Ev; [exact Ev|]. repeat constructor; try apply Ct; try apply Ca. all: apply Cv.
    - destruct IHl as (Tl' & Rl & Vl & Ol & Wl). destruct IHr as (Tr' & Rr & Vr & Or & Wr).
      destruct partial.
      + exists Tl'. rewrite E1, E2, O1. auto.
      + exists (BNode Tl' Tr'). split; [rewrite E1; econstructor; eassumption|].
        split; [rewrite E2; econstructor; [exact Vl|exact Vr|]; apply hash_pair_vm; [apply Wl|apply Wr|exact P2]|].
        split; [|exact W]. cbn. apply List.Forall_app. rewrite O1. split; [exact Ol|]. rewrite O2. exact Or.
  Qed.

  (** ** programs and transactions *)
  (** one program's run as claimed by its proof: its id and its events *)
  Variables (oev : nat -> vd * ev_pi -> Prop) (omg : nat -> vd * mg_pi -> Prop) (prog_acc : vd -> prog_pi -> Prop)
            (opg : nat -> vd * pg_pi -> Prop) (otx : nat -> vd * tx_pi -> Prop).
  Lemma ev_proof_tree x : ev_proof HR own_policy oev x -> exists T, EventRoot HR T (ev_hash x) /\ EventVmRoot HR T (ev_vm x) /\
    Forall (fun e => fe_owner e = ev_owner x) (leaves T) /\ ev_wf x.
  Proof. intros (v & -> & X). apply acc_tree in X as (tl & tr & X). exact (ev_tree _ _ X). Qed.
  Lemma mg_proof_sound {A} (leaf : A -> dig -> Prop) x : hash_cf HR -> (forall a h x y, leaf a h -> pair x y h -> False) ->
    mg_proof HR own_policy omg x -> forall TA TB,
    ORoot leaf pair TA (mg_ap x) (mg_a x) -> ORoot leaf pair TB (mg_bp x) (mg_b x) ->
    exists TM, ORoot leaf pair TM (mg_mp x) (mg_m x) /\ Interleave (oleaves TA) (oleaves TB) (oleaves TM).
  Proof. intros CF sep (v & -> & X). apply acc_tree in X as (tl & tr & X). exact (merge_sound leaf _ _ CF sep X). Qed.
  Lemma em_sound partial lp l rp r sp s TL TR : hash_cf HR -> em_branch HR own_policy omg partial lp l rp r sp s ->
    EventsRoot HR TL lp l -> EventsRoot HR TR rp r ->
    exists TM, EventsRoot HR TM sp s /\ Interleave (oleaves TL) (if partial then [] else oleaves TR) (oleaves TM).
  Proof.
    intros CF (m & M & Ea & Eb & Em & Ga & Gb & Gm) RL RR.
    destruct (mg_proof_sound (fevent_hash HR) m CF ltac:(intros; eapply fevent_no_pair; eassumption) M TL (if partial then None else TR)) as (TM & RM & I).
    - rewrite Ea, Ga. exact RL.
    - rewrite Eb, Gb. destruct partial; [split; reflexivity|exact RR].
    - exists TM. split; [rewrite <- Em, <- Gm; exact RM|]. destruct partial; exact I.
  Qed.

  Definition ProgramOk (call cast : dig) (p : prun) : Prop := program_ok HR prog_acc call cast p.
  Lemma pg_tree t x : hash_cf HR ->
    WfTree (leaf' pg_wf (pg_leaf HR own_policy oev prog_acc)) (branch' pg_wf (pg_branch HR own_policy omg)) t x ->
    exists ps TM, IdsVmRoot HR (tmap pn_id ps) (pg_id x) /\ EventsRoot HR TM (pg_ep x) (pg_ev x) /\
      Shuffle (map (fun p => oleaves (pn_events p)) (leaves ps)) (oleaves TM) /\
      Forall (ProgramOk (pg_call x) (pg_cast x)) (leaves ps) /\ pg_wf x.
  Proof.
    intros CF. induction 1 as [x [W (vdata & pr & ev & present & Ap & Ae & E1 & E2 & E3 & E4 & E5 & E6 & E7 & E8)]
      |tl tr l r x Tl IHl Tr IHr [W (partial & (c & Pc & Ec) & Em & [C1 C2] & [D1 D2])]].
    - assert (X : exists TM, EventsRoot HR TM (pg_ep x) (pg_ev x) /\ ORoot (fevent_vm HR) (vm_pair_hash HR) TM (pr_ep pr) (pr_ev pr) /\
        Forall (fun e => fe_owner e = pg_id x) (oleaves TM)).
      { destruct present.
        - apply ev_proof_tree in Ae as (T & R & V & O & We). exists (Some T).
          split; [split; [exact E4|rewrite E6; exact R]|]. split; [split; [rewrite <- E3; exact E4|rewrite E5; exact V]|].
          rewrite <- E2. exact O.
        - destruct Ae as (Z1 & Z2 & _). exists None. split; [split; [exact E4|rewrite E6; exact Z1]|].
          split; [split; [rewrite <- E3; exact E4|rewrite E5; exact Z2]|constructor]. }
      destruct X as (TM & R & V & O).
      exists (BLeaf (PRun (pg_id x) TM)), TM. split; [constructor; reflexivity|]. split; [exact R|].
      split; [apply Shuffle_one|]. split; [|exact W]. constructor; [|constructor].
      split; [exact O|]. exists vdata, pr. repeat (split; [assumption|]). exact V.
    - destruct IHl as (pl & TL & Il & RL & Sl & Fl & Wl). destruct IHr as (pr & TR & Ir & RR & Sr & Fr & Wr).
      destruct (em_sound _ _ _ _ _ _ _ TL TR CF Em RL RR) as (TM & RM & I).
      destruct partial.
      + exists pl, TM. split; [rewrite Ec; exact Il|]. split; [exact RM|].
        assert (E : oleaves TM = oleaves TL). { clear -I. remember [] as b. induction I; subst; try congruence. f_equal. auto. }
        rewrite E. split; [exact Sl|]. rewrite C1, D1. split; [exact Fl|exact W].
      + exists (BNode pl pr), TM. split; [cbn [tmap]; rewrite Ec; econstructor; [exact Il|exact Ir|apply hash_pair_vm; [apply Wl|apply Wr|exact Pc]]|].
        split; [exact RM|]. cbn [leaves]. rewrite map_app. split; [eapply Shuffle_app; eassumption|]. split; [|exact W].
        apply List.Forall_app. rewrite C1, D1. split; [exact Fl|]. rewrite C2, D2. exact Fr.
  Qed.
  Lemma tx_tree t x : hash_cf HR ->
    WfTree (leaf' tx_wf (tx_leaf HR own_policy oev omg prog_acc opg)) (branch' tx_wf (tx_branch HR own_policy omg)) t x ->
    exists txs TM, EventsRoot HR TM (tx_ep x) (tx_ev x) /\ Shuffle (map (fun t => oleaves (tr_events t)) txs) (oleaves TM) /\
      Forall (transaction_ok HR prog_acc) txs /\ txs <> [] /\ tx_wf x.
  Proof.
    intros CF. induction 1 as [x [W (p & (v & -> & Ap) & Ec & E1 & E2)]|tl tr l r x Tl IHl Tr IHr [W (partial & Em)]].
    - apply acc_tree in Ap as (tl & tr & Ap). apply (pg_tree _ _ CF) in Ap as (ps & TM & I & R & S & F & Wp).
      exists [Transaction ps (pg_call p) (pg_cast p) TM], TM. rewrite E1, E2. split; [exact R|]. split; [apply Shuffle_one|].
      split; [|split; [discriminate|exact W]]. constructor; [|constructor]. split; [cbn; rewrite Ec; exact I|]. split; [exact S|exact F].
    - destruct IHl as (xl & TL & RL & Sl & Fl & Nl & Wl). destruct IHr as (xr & TR & RR & Sr & Fr & Nr & Wr).
      destruct (em_sound _ _ _ _ _ _ _ TL TR CF Em RL RR) as (TM & RM & I).
      destruct partial.
      + exists xl, TM. split; [exact RM|].
        assert (E : oleaves TM = oleaves TL). { clear -I. remember [] as b. induction I; subst; try congruence. f_equal. auto. }
        rewrite E. auto.
      + exists (xl ++ xr), TM. split; [exact RM|]. rewrite map_app. split; [eapply Shuffle_app; eassumption|].
        split; [apply List.Forall_app; auto|]. split; [destruct xl; [contradiction|discriminate]|exact W].
  Qed.
End Trees.
