From Verif Require Export ExprSpec.
Open Scope Z_scope.

Section Arena.
  Context {V D : Type} (F : values D) (lit : V -> D) (HF : integers F).
  Lemma int_bin op a b k : i64_bin op a b = Ok k -> v_int F k = v_bin F op (v_int F a) (v_int F b).
  Proof. unfold i64_bin, i64. destruct (_ && _); [|discriminate]. intros [= <-]. destruct op; apply HF. Qed.
  Lemma int_neg' a k : i64_neg a = Ok k -> v_int F k = v_neg F (v_int F a).
  Proof. unfold i64_neg, i64. destruct (_ && _); [|discriminate]. intros [= <-]. apply HF. Qed.

  (** the value of the node at position [p] *)
  Inductive node_is (vals : list D) (p : nat) : node V -> D -> Prop :=
  | ni_bin op l r x y : (l < p)%nat -> (r < p)%nat -> vals !! l = Some x -> vals !! r = Some y -> node_is vals p (NBin op l r) (v_bin F op x y)
  | ni_neg e x : (e < p)%nat -> vals !! e = Some x -> node_is vals p (NNeg e) (v_neg F x)
  | ni_lit v : node_is vals p (NLit v) (lit v)
  | ni_const k : node_is vals p (NConst k) (v_int F k).
  Definition vals_ok (h : arena V) (vals : list D) : Prop :=
    length vals = length h /\ forall p nd, h !! p = Some nd -> exists d, vals !! p = Some d /\ node_is vals p nd d.
  Definition expr_is (vals : list D) (e : expr) (d : D) : Prop :=
    match e with Basic k => d = v_int F k | Compound p => vals !! p = Some d end.

  Lemma node_is_mono vals vals' p nd d : vals `prefix_of` vals' -> node_is vals p nd d -> node_is vals' p nd d.
  Proof. intros [t ->] []; econstructor; eauto; apply lookup_app_l_Some; assumption. Qed.
  Lemma expr_is_mono vals vals' e d : vals `prefix_of` vals' -> expr_is vals e d -> expr_is vals' e d.
  Proof. intros [t ->]. destruct e as [k|p]; cbn; [auto|]. intros H. apply lookup_app_l_Some, H. Qed.
  Lemma intern_ok h vals nd d p h' : vals_ok h vals -> node_is vals (length h) nd d -> intern nd h = (p, h') ->
    vals_ok h' (vals ++ [d]) /\ (vals ++ [d]) !! p = Some d.
  Proof.
    intros [L H] N [= <- <-]. assert (E : (vals ++ [d]) !! length h = Some d) by (rewrite <- L; apply list_lookup_middle; reflexivity). split; [|exact E].
    split; [rewrite !app_length, L; reflexivity|]. intros q nd' Q. apply lookup_app_Some in Q as [Q|[Lq Q]].
    - destruct (H q nd' Q) as (d' & E' & N'). exists d'. split; [apply lookup_app_l_Some, E'|]. eapply node_is_mono; [|exact N']. eexists; reflexivity.
    - apply list_lookup_singleton_Some in Q as [Lq' <-]. assert (q = length h) as -> by lia. exists d. split; [exact E|].
      eapply node_is_mono; [|exact N]. eexists; reflexivity.
  Qed.
  Lemma ensure_ok h vals e d p h' : vals_ok h vals -> expr_is vals e d -> ensure_interned e h = (p, h') ->
    exists vals', vals `prefix_of` vals' /\ vals_ok h' vals' /\ vals' !! p = Some d.
  Proof.
    intros A B E. destruct e as [k|q]; cbn in B.
    - subst d. destruct (intern_ok _ _ _ _ _ _ A (ni_const _ _ k) E) as [A' B']. exists (vals ++ [v_int F k]). split; [eexists; reflexivity|auto].
    - injection E as <- <-. exists vals. auto.
  Qed.
  Definition good (h : arena V) (vals : list D) (r : res (expr * arena V)) (d : D) : Prop :=
    forall e h', r = Ok (e, h') -> exists vals', vals `prefix_of` vals' /\ vals_ok h' vals' /\ expr_is vals' e d.
  Lemma bin_op_ok op h vals a b x y : vals_ok h vals -> expr_is vals a x -> expr_is vals b y -> good h vals (bin_op op a b h) (v_bin F op x y).
  Proof.
    intros A Ha Hb e h' E.
    assert (G : (let '(l, h1) := ensure_interned a h in let '(r, h2) := ensure_interned b h1 in
                 let '(p, h3) := intern (NBin op l r) h2 in Ok (Compound p, h3)) = Ok (e, h') ->
                exists vals', vals `prefix_of` vals' /\ vals_ok h' vals' /\ expr_is vals' e (v_bin F op x y)).
    { clear E. intros E. destruct (ensure_interned a h) as [l h1] eqn:E1. destruct (ensure_interned b h1) as [r h2] eqn:E2. destruct (intern _ h2) as [p h3] eqn:E3. injection E as <- <-.
      destruct (ensure_ok _ _ _ _ _ _ A Ha E1) as (v1 & P1 & A1 & L1). destruct (ensure_ok _ _ _ _ _ _ A1 (expr_is_mono _ _ _ _ P1 Hb) E2) as (v2 & P2 & A2 & L2).
      assert (L1' : v2 !! l = Some x) by (eapply prefix_lookup; eassumption).
      assert (NI : node_is v2 (length h2) (NBin op l r) (v_bin F op x y)). { constructor; auto; destruct A2 as [<- _]; eapply lookup_lt_Some; eassumption. }
      destruct (intern_ok _ _ _ _ _ _ A2 NI E3) as [A3 L3]. exists (v2 ++ [v_bin F op x y]). split; [|auto]. transitivity v1; [exact P1|]. transitivity v2; [exact P2|]. eexists; reflexivity. }
    destruct a as [ka|pa]; [destruct b as [kb|pb]|]; try exact (G E).
    cbn in E. destruct (i64_bin op ka kb) as [k| |] eqn:K; try discriminate E. injection E as <- <-. cbn in Ha, Hb. subst x y. exists vals. split; [reflexivity|]. split; [exact A|]. cbn. symmetry. apply int_bin, K.
  Qed.
  Lemma una_op_ok h vals a x : vals_ok h vals -> expr_is vals a x -> good h vals (una_op a h) (v_neg F x).
  Proof.
    intros A Ha e h' E. destruct a as [k|p]; cbn in E, Ha.
    - destruct (i64_neg k) as [k'| |] eqn:K; try discriminate E. injection E as <- <-. subst x. exists vals. split; [reflexivity|]. split; [exact A|]. cbn. symmetry. apply int_neg', K.
    - injection E as <- <-. assert (NI : node_is vals (length h) (NNeg p) (v_neg F x)). { constructor; auto. destruct A as [<- _]. eapply lookup_lt_Some; eassumption. }
      destruct (intern_ok _ _ _ _ _ _ A NI eq_refl) as [A3 L3]. exists (vals ++ [v_neg F x]). split; [eexists; reflexivity|auto].
  Qed.
  Lemma good_bind h vals r d f d' : good h vals r d ->
    (forall e h' vals', vals `prefix_of` vals' -> vals_ok h' vals' -> expr_is vals' e d -> good h' vals' (f (e, h')) d') -> good h vals (rbind r f) d'.
  Proof.
    intros G H e h' E. destruct r as [[e1 h1]| |]; try discriminate E. destruct (G e1 h1 eq_refl) as (v1 & P1 & A1 & X1).
    destruct (H e1 h1 v1 P1 A1 X1 e h' E) as (v2 & P2 & A2 & X2). exists v2. split; [transitivity v1; assumption|auto].
  Qed.
  Lemma is_binary_ok h vals a x : vals_ok h vals -> expr_is vals a x -> good h vals (is_binary a h) (v_bin F EMul x (v_bin F ESub (v_int F 1) x)).
  Proof.
    intros A Ha. unfold is_binary. eapply good_bind; [apply bin_op_ok; [exact A|reflexivity|exact Ha]|]. intros e h' vals' P' A' X'. cbn [fst snd]. apply bin_op_ok; [exact A'|eapply expr_is_mono; eassumption|exact X'].
  Qed.
  Lemma ok_good h vals e d : vals_ok h vals -> expr_is vals e d -> good h vals (Ok (e, h)) d.
  Proof. intros A X e' h' [= <- <-]. exists vals. auto. Qed.
  Lemma exprs_mono vals vals' es ds : vals `prefix_of` vals' -> Forall2 (expr_is vals) es ds -> Forall2 (expr_is vals') es ds.
  Proof. intros P' H. eapply Forall2_impl; [exact H|]. intros. eapply expr_is_mono; eassumption. Qed.
  Lemma reduce_ok h vals es ds base : vals_ok h vals -> Forall2 (expr_is vals) es ds ->
    good h vals (reduce_with_powers es base h) (fold_right (fun x acc => v_bin F EAdd (v_bin F EMul acc (v_int F base)) x) (v_int F 0) ds).
  Proof.
    intros A H. induction H as [|e d es ds X _ IH]; cbn [reduce_with_powers fold_right]; [apply ok_good; [exact A|reflexivity]|].
    eapply good_bind; [exact IH|]. intros e1 h1 v1 P1 A1 X1. cbn [fst snd].
    eapply good_bind; [apply bin_op_ok; [exact A1|exact X1|reflexivity]|]. intros e2 h2 v2 P2 A2 X2. cbn [fst snd].
    apply bin_op_ok; [exact A2|exact X2|]. eapply expr_is_mono; [|exact X]. etransitivity; eassumption.
  Qed.
  Lemma sum_from_ok es ds : forall h vals acc a, vals_ok h vals -> Forall2 (expr_is vals) es ds -> expr_is vals acc a ->
    good h vals (sum_from acc es h) (fold_left (v_bin F EAdd) ds a).
  Proof.
    revert ds. induction es as [|e es IH]; intros ds h vals acc a A H Xa; inversion H as [|? d ? ds' X H']; subst; cbn [sum_from fold_left]; [apply ok_good; assumption|].
    eapply good_bind; [apply bin_op_ok; eassumption|]. intros e1 h1 v1 P1 A1 X1. cbn [fst snd]. apply IH; [exact A1|eapply exprs_mono; eassumption|exact X1].
  Qed.
  Lemma at_env_ok vals env ds i : Forall2 (expr_is vals) env ds -> expr_is vals (at_env env i) (at_vals F ds i).
  Proof.
    unfold at_env, at_vals. intros H. revert i. induction H as [|e d env ds X _ IH]; intros [|i]; cbn; auto.
  Qed.
  Lemma at_envs_ok vals env ds is : Forall2 (expr_is vals) env ds -> Forall2 (expr_is vals) (map (at_env env) is) (map (at_vals F ds) is).
  Proof. intros H. induction is as [|i is IH]; constructor; [apply at_env_ok, H|exact IH]. Qed.
  Lemma lit_good h vals nd d : vals_ok h vals -> node_is vals (length h) nd d -> good h vals (Ok (let '(p, h') := intern nd h in (Compound p, h'))) d.
  Proof.
    intros A N e h' E. injection E as <- <-. destruct (intern_ok _ _ _ _ _ _ A N eq_refl) as [A3 L3]. exists (vals ++ [d]). split; [eexists; reflexivity|auto].
  Qed.
  Lemma call_ok c h vals env ds : vals_ok h vals -> Forall2 (expr_is vals) env ds -> good h vals (call c env h) (api_value F lit c ds).
  Proof.
    intros A H. destruct c; cbn [call api_value].
    - apply lit_good; [exact A|constructor].
    - apply lit_good; [exact A|constructor].
    - apply ok_good; [exact A|reflexivity].
    - apply bin_op_ok; [exact A|apply at_env_ok, H|apply at_env_ok, H].
    - apply una_op_ok; [exact A|apply at_env_ok, H].
    - apply is_binary_ok; [exact A|apply at_env_ok, H].
    - apply reduce_ok; [exact A|apply at_envs_ok, H].
    - apply sum_from_ok; [exact A|apply at_envs_ok, H|reflexivity].
  Qed.
  Lemma build_ok cs : forall h vals env ds env' h', vals_ok h vals -> Forall2 (expr_is vals) env ds -> build cs env h = Ok (env', h') ->
    exists vals', vals `prefix_of` vals' /\ vals_ok h' vals' /\ Forall2 (expr_is vals') env' (denote F lit cs ds).
  Proof.
    induction cs as [|c cs IH]; intros h vals env ds env' h' A H E; cbn [build denote] in *.
    - injection E as <- <-. exists vals. auto.
    - pose proof (call_ok c h vals env ds A H) as G. destruct (call c env h) as [[e1 h1]| |] eqn:C; try discriminate E. cbn [rbind fst snd] in E.
      destruct (G e1 h1 eq_refl) as (v1 & P1 & A1 & X1). destruct (IH h1 v1 (env ++ [e1]) (ds ++ [api_value F lit c ds]) env' h' A1) as (v2 & P2 & A2 & X2); [|exact E|].
      { apply Forall2_app; [eapply exprs_mono; eassumption|constructor; [exact X1|constructor]]. }
      exists v2. split; [transitivity v1; assumption|auto].
  Qed.
  Lemma build_vals cs env h : build cs [] [] = Ok (env, h) -> exists vals, vals_ok h vals /\ Forall2 (expr_is vals) env (denote F lit cs []).
  Proof.
    intros E. destruct (build_ok cs [] [] [] [] env h) as (vals & _ & A & X); [split; [reflexivity|intros p nd Q; discriminate Q]|constructor|exact E|eauto].
  Qed.
End Arena.

(** ** Evaluators that compute these values, with and without caches *)
Section Refine.
  Context {S V D : Type} (F : values D) (lit : V -> D) (ev : evaluator S V) (le : S -> S -> Prop) (R : S -> V -> D -> Prop).
  Record refines : Prop := {
    le_r : forall s, le s s;
    le_t : forall a b c, le a b -> le b c -> le a c;
    R_mono : forall s s' v d, le s s' -> R s v d -> R s' v d;
    R_bin : forall op a b x y s v s', R s a x -> R s b y -> ev_bin ev op a b s = (v, s') -> le s s' /\ R s' v (v_bin F op x y);
    R_neg : forall a x s v s', R s a x -> ev_neg ev a s = (v, s') -> le s s' /\ R s' v (v_neg F x);
    R_const : forall k s v s', ev_const ev k s = (v, s') -> le s s' /\ R s' v (v_int F k) }.
  Context (HR : refines) (h : arena V) (vals : list D) (HV : vals_ok F lit h vals).
  Definition lits (s : S) : Prop := forall p v, h !! p = Some (NLit v) -> R s v (lit v).
  Lemma lits_mono s s' : le s s' -> lits s -> lits s'.
  Proof. intros L H p v E. eapply (R_mono HR); [exact L|eapply H, E]. Qed.
  Lemma compound_ok n : forall p s d, (p < n)%nat -> vals !! p = Some d -> lits s ->
    exists v s', compound_expr ev h n p s = Some (v, s') /\ le s s' /\ R s' v d.
  Proof.
    induction n as [|n IH]; intros p s d L E LT; [lia|]. cbn [compound_expr]. destruct HV as [LV HN].
    destruct (lookup_lt_is_Some_2 h p) as [nd Q]; [rewrite <- LV; eapply lookup_lt_Some, E|]. destruct (HN p nd Q) as (d' & E' & N). assert (d' = d) as -> by congruence. rewrite Q. cbn [mbind option_bind].
    inversion N; subst; cbn [expr_tree].
    - edestruct (IH l s) as (v1 & s1 & -> & L1 & R1); [lia|eassumption|exact LT|]. cbn [mbind option_bind]. edestruct (IH r s1) as (v2 & s2 & -> & L2 & R2); [lia|eassumption|eapply lits_mono; eassumption|].
      cbn [mbind option_bind]. destruct (ev_bin ev op v1 v2 s2) as [v s'] eqn:EV. destruct (R_bin HR op v1 v2 _ _ s2 v s' (R_mono HR _ _ _ _ L2 R1) R2 EV) as [L3 R3].
      exists v, s'. split; [reflexivity|]. split; [eapply (le_t HR); [exact L1|eapply (le_t HR); eassumption]|exact R3].
    - edestruct (IH e s) as (v1 & s1 & -> & L1 & R1); [lia|eassumption|exact LT|]. cbn [mbind option_bind]. destruct (ev_neg ev v1 s1) as [v s'] eqn:EV. destruct (R_neg HR _ _ _ _ _ R1 EV) as [L3 R3].
      exists v, s'. split; [reflexivity|]. split; [eapply (le_t HR); eassumption|exact R3].
    - exists v, s. split; [reflexivity|]. split; [apply (le_r HR)|eapply LT, Q].
    - destruct (ev_const ev k s) as [v s'] eqn:EV. destruct (R_const HR _ _ _ _ EV) as [L3 R3]. exists v, s'. auto.
  Qed.
  Lemma eval_ok e s d : expr_is F vals e d -> lits s -> exists v s', eval ev h e s = Some (v, s') /\ le s s' /\ R s' v d.
  Proof.
    intros X LT. destruct e as [k|p]; cbn [eval expr_is] in *.
    - subst d. destruct (ev_const ev k s) as [v s'] eqn:EV. destruct (R_const HR _ _ _ _ EV) as [L3 R3]. exists v, s'. auto.
    - apply compound_ok; [|exact X|exact LT]. destruct HV as [<- _]. eapply lookup_lt_Some, X.
  Qed.
  Record cache_ok (c : cached S V) : Prop := {
    co_const : forall k v, constant_cache c !! k = Some v -> R (inside c) v (v_int F k);
    co_value : forall p v, value_cache c !! p = Some v -> exists d, vals !! p = Some d /\ R (inside c) v d }.
  Lemma cache_later c c' : constant_cache c' = constant_cache c -> value_cache c' = value_cache c -> le (inside c) (inside c') -> cache_ok c -> cache_ok c'.
  Proof.
    intros E1 E2 L [A B]. constructor; rewrite ?E1, ?E2.
    - intros k v E. eapply (R_mono HR), A, E. exact L.
    - intros p v E. destruct (B p v E) as (d & E' & R'). exists d. split; [exact E'|]. eapply (R_mono HR), R'. exact L.
  Qed.
  Definition cgood (c : cached S V) (r : option (V * cached S V)) (d : D) : Prop :=
    exists v c', r = Some (v, c') /\ le (inside c) (inside c') /\ cache_ok c' /\ R (inside c') v d.
  Lemma cbin_ok op a b x y c : cache_ok c -> R (inside c) a x -> R (inside c) b y -> cgood c (Some (ev_bin (cached_ev ev) op a b c)) (v_bin F op x y).
  Proof.
    intros A Ra Rb. cbn [cached_ev ev_bin]. destruct (ev_bin ev op a b (inside c)) as [v s'] eqn:EV. destruct (R_bin HR _ _ _ _ _ _ _ _ Ra Rb EV) as [L R'].
    eexists _, _. split; [reflexivity|]. cbn [inside]. split; [exact L|]. split; [eapply cache_later; [..|exact A]; auto|exact R'].
  Qed.
  Lemma cneg_ok a x c : cache_ok c -> R (inside c) a x -> cgood c (Some (ev_neg (cached_ev ev) a c)) (v_neg F x).
  Proof.
    intros A Ra. cbn [cached_ev ev_neg]. destruct (ev_neg ev a (inside c)) as [v s'] eqn:EV. destruct (R_neg HR _ _ _ _ _ Ra EV) as [L R'].
    eexists _, _. split; [reflexivity|]. cbn [inside]. split; [exact L|]. split; [eapply cache_later; [..|exact A]; auto|exact R'].
  Qed.
  Lemma cconst_ok k c : cache_ok c -> cgood c (Some (ev_const (cached_ev ev) k c)) (v_int F k).
  Proof.
    intros A. cbn [cached_ev ev_const]. destruct (constant_cache c !! k) as [v|] eqn:K.
    - exists v, c. split; [reflexivity|]. split; [apply (le_r HR)|]. split; [exact A|]. apply (co_const c A), K.
    - destruct (ev_const ev k (inside c)) as [v s'] eqn:EV. destruct (R_const HR _ _ _ _ EV) as [L R']. eexists _, _. split; [reflexivity|]. cbn [inside]. split; [exact L|]. split; [|exact R'].
      constructor; cbn [constant_cache value_cache inside].
      + intros k' v' E. destruct (decide (k = k')) as [->|Nk]; [rewrite lookup_insert in E; injection E as <-; exact R'|]. rewrite lookup_insert_ne in E by exact Nk. eapply (R_mono HR), (co_const c A), E. exact L.
      + intros p v' E. destruct (co_value c A p v' E) as (d & E' & R2). exists d. split; [exact E'|]. eapply (R_mono HR), R2. exact L.
  Qed.
  Lemma cached_compound_ok n : forall p c d, (p < n)%nat -> vals !! p = Some d -> lits (inside c) -> cache_ok c -> cgood c (cached_compound ev h n p c) d.
  Proof.
    induction n as [|n IH]; intros p c d L E LT A; [lia|]. cbn [cached_compound]. destruct (value_cache c !! p) as [v|] eqn:VC.
    { exists v, c. split; [reflexivity|]. split; [apply (le_r HR)|]. split; [exact A|]. destruct (co_value c A p v VC) as (d' & E' & R'). congruence. }
    destruct HV as [LV HN]. destruct (lookup_lt_is_Some_2 h p) as [nd Q]; [rewrite <- LV; eapply lookup_lt_Some, E|]. destruct (HN p nd Q) as (d' & E' & N). assert (d' = d) as -> by congruence. rewrite Q. cbn [mbind option_bind].
    assert (G : cgood c (expr_tree (cached_ev ev) (cached_compound ev h n) nd c) d).
    { inversion N; subst; cbn [expr_tree].
      - edestruct (IH l c) as (v1 & c1 & -> & L1 & A1 & R1); [lia|eassumption|exact LT|exact A|]. cbn [mbind option_bind].
        edestruct (IH r c1) as (v2 & c2 & -> & L2 & A2 & R2); [lia|eassumption|eapply lits_mono; eassumption|exact A1|]. cbn [mbind option_bind].
        destruct (cbin_ok op v1 v2 x y c2 A2 (R_mono HR _ _ _ _ L2 R1) R2) as (v & c' & E3 & L3 & A3 & R3). exists v, c'. split; [exact E3|]. split; [|auto]. eapply (le_t HR); [exact L1|]. eapply (le_t HR); eassumption.
      - edestruct (IH e c) as (v1 & c1 & -> & L1 & A1 & R1); [lia|eassumption|exact LT|exact A|]. cbn [mbind option_bind].
        destruct (cneg_ok v1 x c1 A1 R1) as (v & c' & E3 & L3 & A3 & R3). exists v, c'. split; [exact E3|]. split; [|auto]. eapply (le_t HR); eassumption.
      - exists v, c. split; [reflexivity|]. split; [apply (le_r HR)|]. split; [exact A|]. eapply LT, Q.
      - apply cconst_ok, A. }
    destruct G as (v & c' & -> & L3 & A3 & R3). cbn [mbind option_bind]. eexists _, _. split; [reflexivity|]. cbn [inside]. split; [exact L3|]. split; [|exact R3].
    constructor; cbn [constant_cache value_cache inside]; [apply (co_const c' A3)|].
    intros p' v' K. destruct (decide (p = p')) as [<-|Np]; [rewrite lookup_insert in K; injection K as <-; eauto|]. rewrite lookup_insert_ne in K by exact Np. eapply (co_value c' A3), K.
  Qed.
  Lemma cached_eval_ok e c d : expr_is F vals e d -> lits (inside c) -> cache_ok c -> cgood c (cached_eval ev h e c) d.
  Proof.
    intros X LT A. destruct e as [k|p]; cbn [cached_eval expr_is] in *.
    - subst d. apply cconst_ok, A.
    - apply cached_compound_ok; [|exact X|exact LT|exact A]. destruct HV as [<- _]. eapply lookup_lt_Some, X.
  Qed.
  Lemma no_cache_ok s : cache_ok (no_cache s).
  Proof. constructor; intros k v E; cbn in E; rewrite lookup_empty in E; discriminate E. Qed.
  Lemma cached_list_ok es ds : forall c, Forall2 (expr_is F vals) es ds -> lits (inside c) -> cache_ok c ->
    exists vs c', eval_list (cached_eval ev h) es c = Some (vs, c') /\ le (inside c) (inside c') /\ cache_ok c' /\ Forall2 (R (inside c')) vs ds.
  Proof.
    revert ds. induction es as [|e es IH]; intros ds c H LT A; inversion H as [|? d ? ds' X H']; subst; cbn [eval_list].
    - exists [], c. split; [reflexivity|]. split; [apply (le_r HR)|]. split; [exact A|constructor].
    - destruct (cached_eval_ok e c d X LT A) as (v & c1 & -> & L1 & A1 & R1). cbn [mbind option_bind].
      destruct (IH ds' c1 H' (lits_mono _ _ L1 LT) A1) as (vs & c2 & -> & L2 & A2 & R2). cbn [mbind option_bind]. exists (v :: vs), c2. split; [reflexivity|].
      split; [eapply (le_t HR); eassumption|]. split; [exact A2|]. constructor; [eapply (R_mono HR); eassumption|exact R2].
  Qed.
End Refine.
