From Verif Require Export ExprProofs.
Open Scope Z_scope.

(** ** The pure evaluator *)
Lemma pure_refines {D} (F : values D) : refines F (pure F) (fun _ _ => True) (fun _ v d => v = d).
Proof.
  constructor; auto.
  - intros op a b x y s v s' -> -> [= <- <-]. auto.
  - intros a x s v s' -> [= <- <-]. auto.
  - intros k s v s' [= <- <-]. auto.
Qed.

(** ** The literals of an arena are those of the program *)
Section Literals.
  Context {V : Type}.
  Definition only (Q : V -> Prop) (h : arena V) : Prop := forall p v, h !! p = Some (NLit v) -> Q v.
  Definition node_only (Q : V -> Prop) (nd : node V) : Prop := match nd with NLit v => Q v | _ => True end.
  Lemma only_intern Q nd h p h' : only Q h -> node_only Q nd -> intern nd h = (p, h') -> only Q h'.
  Proof.
    intros A B [= <- <-] q v E. apply lookup_app_Some in E as [E|[_ E]]; [eapply A, E|]. apply list_lookup_singleton_Some in E as [_ ->]. exact B.
  Qed.
  Definition ronly (Q : V -> Prop) (r : res (expr * arena V)) : Prop := forall e h, r = Ok (e, h) -> only Q h.
  Lemma only_ensure Q e h p h' : only Q h -> ensure_interned e h = (p, h') -> only Q h'.
  Proof. intros A E. destruct e; cbn in E; [eapply only_intern; [exact A| |exact E]; exact I|injection E as _ <-; exact A]. Qed.
  Lemma only_bin Q op a b h : only Q h -> ronly Q (bin_op op a b h).
  Proof.
    intros A e h' E.
    assert (G : (let '(l, h1) := ensure_interned a h in let '(r, h2) := ensure_interned b h1 in let '(p, h3) := intern (NBin op l r) h2 in Ok (Compound p, h3)) = Ok (e, h') -> only Q h').
    { clear E. destruct (ensure_interned a h) as [l h1] eqn:E1. destruct (ensure_interned b h1) as [r h2] eqn:E2. destruct (intern (NBin op l r) h2) as [p h3] eqn:E3. intros [= <- <-].
      eapply only_intern; [| |exact E3]; [|exact I]. eapply only_ensure; [|exact E2]. eapply only_ensure; [|exact E1]. exact A. }
    destruct a as [ka|pa]; [destruct b as [kb|pb]|]; try exact (G E). cbn in E. destruct (i64_bin op ka kb); try discriminate E. injection E as <- <-. exact A.
  Qed.
  Lemma only_una Q a h : only Q h -> ronly Q (una_op a h).
  Proof.
    intros A e h' E. destruct a as [k|p]; cbn in E; [destruct (i64_neg k); try discriminate E; injection E as <- <-; exact A|].
    injection E as <- <-. eapply only_intern; [exact A| |reflexivity]. exact I.
  Qed.
  Lemma only_bind Q r f : ronly Q r -> (forall e h, only Q h -> ronly Q (f (e, h))) -> ronly Q (rbind r f).
  Proof. intros A B e h E. destruct r as [[e1 h1]| |]; try discriminate E. eapply B; [|exact E]. eapply A; reflexivity. Qed.
  Lemma only_ok Q e h : only Q h -> ronly Q (Ok (e, h)).
  Proof. intros A e' h' [= <- <-]. exact A. Qed.
  Lemma only_reduce Q es base h : only Q h -> ronly Q (reduce_with_powers es base h).
  Proof.
    intros A. induction es as [|e es IH]; cbn [reduce_with_powers]; [apply only_ok, A|]. apply only_bind; [exact IH|]. intros e1 h1 A1. cbn [fst snd].
    apply only_bind; [apply only_bin, A1|]. intros e2 h2 A2. apply only_bin, A2.
  Qed.
  Lemma only_sum Q es : forall acc h, only Q h -> ronly Q (sum_from acc es h).
  Proof.
    induction es as [|e es IH]; intros acc h A; cbn [sum_from]; [apply only_ok, A|]. apply only_bind; [apply only_bin, A|]. intros e1 h1 A1. apply IH, A1.
  Qed.
  Lemma only_call (Q : V -> Prop) c env h : only Q h -> (forall v, c = ALit v -> Q v) -> ronly Q (call c env h).
  Proof.
    intros A B. destruct c; cbn [call].
    - intros e h' [= <- <-]. eapply only_intern; [exact A| |reflexivity]. apply B. reflexivity.
    - intros e h' [= <- <-]. eapply only_intern; [exact A| |reflexivity]. exact I.
    - apply only_ok, A.
    - apply only_bin, A.
    - apply only_una, A.
    - unfold is_binary. apply only_bind; [apply only_bin, A|]. intros e1 h1 A1. apply only_bin, A1.
    - apply only_reduce, A.
    - apply only_sum, A.
  Qed.
  Lemma only_build (Q : V -> Prop) cs : forall env h env' h', only Q h -> Forall Q (literals cs) -> build cs env h = Ok (env', h') -> only Q h'.
  Proof.
    induction cs as [|c cs IH]; intros env h env' h' A B E; cbn [build literals flat_map] in *; [injection E as _ <-; exact A|].
    apply Forall_app in B as [B1 B2]. destruct (call c env h) as [[e1 h1]| |] eqn:C; try discriminate E. eapply IH; [|exact B2|exact E].
    eapply only_call; [exact A| |exact C]. intros v ->. inversion B1; assumption.
  Qed.
End Literals.

(** ** The same program with other literals *)
Section Map.
  Context {V W : Type} (f : V -> W).
  Definition map_node (nd : node V) : node W :=
    match nd with NBin op l r => NBin op l r | NNeg e => NNeg e | NLit v => NLit (f v) | NConst k => NConst k end.
  Definition map_res (r : res (expr * arena V)) : res (expr * arena W) :=
    match r with Ok (e, h) => Ok (e, map map_node h) | Err x => Err x | Panic x => Panic x end.
  Lemma map_intern nd h : intern (map_node nd) (map map_node h) = (fst (intern nd h), map map_node (snd (intern nd h))).
  Proof. unfold intern. cbn [fst snd]. rewrite map_length, map_app. reflexivity. Qed.
  Lemma map_ensure e h : ensure_interned e (map map_node h) = (fst (ensure_interned e h), map map_node (snd (ensure_interned e h))).
  Proof. destruct e as [k|p]; [apply (map_intern (NConst k))|reflexivity]. Qed.
  Lemma map_bin op a b h : bin_op op a b (map map_node h) = map_res (bin_op op a b h).
  Proof.
    assert (G : (let '(l, h1) := ensure_interned a (map map_node h) in let '(r, h2) := ensure_interned b h1 in let '(p, h3) := intern (NBin op l r) h2 in Ok (Compound p, h3)) =
                map_res (let '(l, h1) := ensure_interned a h in let '(r, h2) := ensure_interned b h1 in let '(p, h3) := intern (NBin op l r) h2 in Ok (Compound p, h3))).
    { rewrite map_ensure. destruct (ensure_interned a h) as [l h1]. cbn [fst snd]. rewrite map_ensure. destruct (ensure_interned b h1) as [r h2]. cbn [fst snd].
      rewrite (map_intern (NBin op l r)). destruct (intern (NBin op l r) h2). reflexivity. }
    destruct a as [ka|pa]; [destruct b as [kb|pb]|]; try exact G. cbn. destruct (i64_bin op ka kb); reflexivity.
  Qed.
  Lemma map_una a h : una_op a (map map_node h) = map_res (una_op a h).
  Proof. destruct a as [k|p]; cbn [una_op]; [destruct (i64_neg k); reflexivity|]. rewrite (map_intern (NNeg p)). destruct (intern (NNeg p) h). reflexivity. Qed.
  Lemma map_bind r g g' : (forall e h, g' (e, map map_node h) = map_res (g (e, h))) -> rbind (map_res r) g' = map_res (rbind r g).
  Proof. intros H. destruct r as [[e h]| |]; cbn; auto. Qed.
  Lemma map_reduce es base h : reduce_with_powers es base (map map_node h) = map_res (reduce_with_powers es base h).
  Proof.
    induction es as [|e es IH]; cbn [reduce_with_powers]; [reflexivity|]. rewrite IH. apply map_bind. intros e1 h1. cbn [fst snd]. rewrite map_bin. apply map_bind. intros e2 h2. apply map_bin.
  Qed.
  Lemma map_sum es : forall acc h, sum_from acc es (map map_node h) = map_res (sum_from acc es h).
  Proof. induction es as [|e es IH]; intros acc h; cbn [sum_from]; [reflexivity|]. rewrite map_bin. apply map_bind. intros e1 h1. apply IH. Qed.
  Lemma map_call c env h : call (map_api f c) env (map map_node h) = map_res (call c env h).
  Proof.
    destruct c; cbn [call map_api].
    - unfold lit. rewrite (map_intern (NLit v)). destruct (intern (NLit v) h). reflexivity.
    - unfold constant. rewrite (map_intern (NConst k)). destruct (intern (NConst k) h). reflexivity.
    - reflexivity.
    - apply map_bin.
    - apply map_una.
    - unfold is_binary. rewrite map_bin. apply map_bind. intros e1 h1. apply map_bin.
    - apply map_reduce.
    - apply map_sum.
  Qed.
  Lemma map_build cs : forall env h env' h', build cs env h = Ok (env', h') -> build (map (map_api f) cs) env (map map_node h) = Ok (env', map map_node h').
  Proof.
    induction cs as [|c cs IH]; intros env h env' h' E; cbn [build map] in *; [injection E as <- <-; reflexivity|].
    rewrite map_call. destruct (call c env h) as [[e1 h1]| |]; try discriminate E. cbn [rbind fst snd map_res] in *. apply IH, E.
  Qed.
  Lemma map_denote {D} (F : values D) (g : W -> D) cs : forall ds, denote F g (map (map_api f) cs) ds = denote F (fun v => g (f v)) cs ds.
  Proof. induction cs as [|c cs IH]; intros ds; cbn [denote map]; [reflexivity|]. rewrite IH. destruct c; reflexivity. Qed.
End Map.

(** ** Counting *)
Section Count.
  Context {S V : Type} (ev : evaluator S V) (h : arena V).
  Definition earlier : Prop := forall p nd, h !! p = Some nd -> match nd with NBin _ l r => (l < p)%nat /\ (r < p)%nat | NNeg e => (e < p)%nat | _ => True end.
  Context (HE : earlier).
  Notation cnt c := (fst (inside c)).
  Notation sz c := (Z.of_nat (size (value_cache c))).
  Definition counted (p : nat) (extra : Z) (c c' : cached (Z * S) V) : Prop :=
    cnt c' + sz c <= cnt c + sz c' + extra /\ forall q, is_Some (value_cache c' !! q) -> is_Some (value_cache c !! q) \/ (q < p)%nat.
  Lemma const_counted k c v c' p : ev_const (cached_ev (counting ev)) k c = (v, c') -> counted p 1 c c'.
  Proof.
    cbn [cached_ev ev_const counting]. destruct (constant_cache c !! k) as [v1|].
    - intros [= <- <-]. split; [lia|auto].
    - destruct (ev_const ev k (snd (inside c))) as [v1 s1]. intros [= <- <-]. split; [cbn; lia|cbn; auto].
  Qed.
  Lemma count_compound n : forall p c v c', cached_compound (counting ev) h n p c = Some (v, c') -> (p < length h)%nat /\ counted (Datatypes.S p) 0 c c' \/ c' = c.
  Proof.
    induction n as [|n IH]; intros p c v c' E; [discriminate E|]. cbn [cached_compound] in E. destruct (value_cache c !! p) as [v1|] eqn:VC; [injection E as <- <-; auto|].
    destruct (h !! p) as [nd|] eqn:Q; [|discriminate E]. cbn [mbind option_bind] in E. left. split; [eapply lookup_lt_Some, Q|].
    destruct (expr_tree _ _ nd c) as [[v1 c1]|] eqn:T; [|discriminate E]. cbn [mbind option_bind] in E. injection E as <- <-.
    assert (G : counted p 1 c c1).
    { pose proof (HE p nd Q) as HC. destruct nd as [op l r|e|v2|k]; cbn [expr_tree] in T.
      - destruct (cached_compound (counting ev) h n l c) as [[a ca]|] eqn:E1; [|discriminate T]. cbn [mbind option_bind] in T. destruct (cached_compound (counting ev) h n r ca) as [[b cb]|] eqn:E2; [|discriminate T]. cbn [mbind option_bind] in T.
        cbn [cached_ev ev_bin counting] in T. destruct (ev_bin ev op a b (snd (inside cb))) as [v2 s2]. injection T as <- <-.
        assert (G1 : counted p 0 c ca). { destruct (IH _ _ _ _ E1) as [[_ [A B]]| ->]; [split; [exact A|]|split; [lia|auto]]. intros q I. destruct (B q I); [auto|right; lia]. }
        assert (G2 : counted p 0 ca cb). { destruct (IH _ _ _ _ E2) as [[_ [A B]]| ->]; [split; [exact A|]|split; [lia|auto]]. intros q I. destruct (B q I); [auto|right; lia]. }
        destruct G1 as [A1 B1], G2 as [A2 B2]. split; cbn [inside value_cache fst]; [lia|]. intros q I. destruct (B2 q I); [|auto]. auto.
      - destruct (cached_compound (counting ev) h n e c) as [[a ca]|] eqn:E1; [|discriminate T]. cbn [mbind option_bind] in T.
        cbn [cached_ev ev_neg counting] in T. destruct (ev_neg ev a (snd (inside ca))) as [v2 s2]. injection T as <- <-.
        assert (G1 : counted p 0 c ca). { destruct (IH _ _ _ _ E1) as [[_ [A B]]| ->]; [split; [exact A|]|split; [lia|auto]]. intros q I. destruct (B q I); [auto|right; lia]. }
        destruct G1 as [A1 B1]. split; cbn [inside value_cache fst]; [lia|auto].
      - injection T as <- <-. split; [lia|auto].
      - apply Some_inj in T. eapply const_counted, T. }
    destruct G as [A B]. assert (FR : value_cache c1 !! p = None).
    { destruct (value_cache c1 !! p) as [x|] eqn:X; [|reflexivity]. destruct (B p) as [[y Y]|L]; [rewrite X; eauto| |lia]. rewrite VC in Y. discriminate Y. }
    split; cbn [inside value_cache].
    - rewrite map_size_insert_None by exact FR. lia.
    - intros q I. destruct (decide (p = q)) as [<-|Np]; [right; lia|]. rewrite lookup_insert_ne in I by exact Np. destruct (B q I); [auto|right; lia].
  Qed.
  Lemma count_eval e c v c' : cached_eval (counting ev) h e c = Some (v, c') -> counted (length h) 1 c c'.
  Proof.
    destruct e as [k|p]; cbn [cached_eval]; intros E.
    - apply Some_inj in E. eapply const_counted, E.
    - destruct (count_compound _ _ _ _ _ E) as [[L [A B]]| ->]; [|split; [lia|auto]]. split; [lia|]. intros q I. destruct (B q I); [auto|right; lia].
  Qed.
  Lemma count_list es : forall c vs c', eval_list (cached_eval (counting ev) h) es c = Some (vs, c') -> counted (length h) (Z.of_nat (length es)) c c'.
  Proof.
    induction es as [|e es IH]; intros c vs c' E; cbn [eval_list] in E; [injection E as <- <-; split; [cbn [length]; lia|auto]|].
    destruct (cached_eval _ h e c) as [[v c1]|] eqn:E1; [|discriminate E]. cbn [mbind option_bind] in E. destruct (eval_list _ es c1) as [[vs1 c2]|] eqn:E2; [|discriminate E]. injection E as <- <-.
    destruct (count_eval _ _ _ _ E1) as [A1 B1], (IH _ _ _ E2) as [A2 B2]. split; [cbn [length]; lia|]. intros q I. destruct (B2 q I); auto.
  Qed.
  Lemma count_bound es s vs c : eval_list (cached_eval (counting ev) h) es (no_cache (0, s)) = Some (vs, c) -> cnt c <= Z.of_nat (length h) + Z.of_nat (length es).
  Proof.
    intros E. destruct (count_list _ _ _ _ E) as [A B]. cbn [no_cache inside value_cache fst] in A, B. rewrite map_size_empty in A.
    assert (L : (size (value_cache c) <= length h)%nat); [|lia].
    rewrite <- (size_dom (D := gset nat)). transitivity (size (set_seq (C := gset nat) 0 (length h))); [|rewrite size_set_seq; lia].
    apply subseteq_size. intros q I. apply elem_of_dom in I. apply elem_of_set_seq. destruct (B q I) as [[x X]|X]; [rewrite lookup_empty in X; discriminate X|lia].
  Qed.
End Count.
Lemma vals_earlier {V D} (F : values D) (lit : V -> D) h vals : vals_ok F lit h vals -> earlier h.
Proof. intros [_ H] p nd E. destruct (H p nd E) as (d & _ & N). inversion N; subst; auto. Qed.

(** ** Circuits *)
Section Circuit.
  Context {D : Type} (F : values D) (HF : integers F).
  Definition extends (k k' : circuit) : Prop := k `prefix_of` k' /\ forall i g, (length k <= i)%nat -> k' !! i = Some g -> Forall (fun t => (t < i)%nat) (inputs g).
  Lemma extends_r k : extends k k.
  Proof. split; [reflexivity|]. intros i g L E. apply lookup_lt_Some in E. lia. Qed.
  Lemma extends_t a b c : extends a b -> extends b c -> extends a c.
  Proof.
    intros [A1 A2] [B1 B2]. split; [transitivity b; assumption|]. intros i g L E. destruct (le_lt_dec (length b) i) as [Lb|Lb]; [eapply B2; eassumption|].
    eapply A2; [exact L|]. destruct B1 as [t ->]. rewrite lookup_app_l in E by exact Lb. exact E.
  Qed.
  Lemma extends_new g k i k' : gate_new g k = (i, k') -> Forall (fun t => (t < length k)%nat) (inputs g) -> extends k k' /\ k' !! i = Some g /\ (i < length k')%nat.
  Proof.
    intros [= <- <-] H. split; [|split; [apply list_lookup_middle; reflexivity|rewrite app_length; cbn; lia]]. split; [eexists; reflexivity|].
    intros i g' L E. apply lookup_app_Some in E as [E|[_ E]]; [apply lookup_lt_Some in E; lia|]. apply list_lookup_singleton_Some in E as [E <-]. assert (i = length k) as -> by lia. exact H.
  Qed.
  Lemma satisfies_prefix w k k' : extends k k' -> satisfies F w k' -> satisfies F w k.
  Proof. intros [[t ->] _] H i g E. apply H. apply lookup_app_l_Some, E. Qed.
  Lemma extends_length k k' : extends k k' -> (length k <= length k')%nat.
  Proof. intros [L _]. apply prefix_length, L. Qed.
  (** values of new gates can always be found *)
  Definition gate_val (w : nat -> D) (g : gate) : D :=
    match g with GInput => v_int F 0 | GBin op a b => v_bin F op (w a) (w b) | GScale k a => v_bin F EMul (v_int F k) (w a) | GConst k => v_int F k
    | GMulAdd a b c => v_bin F EAdd (v_bin F EMul (w a) (w b)) (w c) end.
  Lemma gate_ok_agree w w' i g : Forall (fun t => w t = w' t) (i :: inputs g) -> gate_ok F w i g -> gate_ok F w' i g.
  Proof.
    intros H. inversion H as [|? ? H0 H1]; subst. destruct g; cbn [gate_ok inputs] in *; repeat match goal with H : Forall _ (_ :: _) |- _ => inversion H; subst; clear H end; try rewrite <- H0; congruence.
  Qed.
  Lemma witness w k k' : extends k k' -> Forall (fun g => Forall (fun t => (t < length k)%nat) (inputs g)) k -> satisfies F w k ->
    exists w', (forall i, (i < length k)%nat -> w' i = w i) /\ satisfies F w' k'.
  Proof.
    intros [[t ->] H] C S. revert H. induction t as [|g t IH] using rev_ind; intros H.
    - exists w. rewrite app_nil_r. auto.
    - destruct IH as (w1 & A & B).
      { intros i g' L E. eapply H; [exact L|]. rewrite app_assoc. apply lookup_app_l_Some, E. }
      set (n := length (k ++ t)). exists (fun i => if decide (i = n) then gate_val w1 g else w1 i).
      assert (Lk : (length k <= n)%nat) by (unfold n; rewrite app_length; lia).
      split; [intros i L; destruct (decide (i = n)); [lia|auto]|].
      assert (IN : forall i g', (k ++ t) !! i = Some g' -> Forall (fun x => (x < n)%nat) (inputs g')).
      { intros i g' E. apply lookup_app_Some in E as E'. destruct E' as [E'|[L E']].
        - rewrite List.Forall_forall in C. apply elem_of_list_lookup_2, elem_of_list_In in E'. specialize (C _ E'). revert C. apply List.Forall_impl. intros; lia.
        - pose proof (lookup_lt_Some _ _ _ E) as Li. fold n in Li. specialize (H i g' L). rewrite app_assoc in H. specialize (H (lookup_app_l_Some _ _ _ _ E)). revert H. apply List.Forall_impl. intros; lia. }
      intros i g' E. rewrite app_assoc in E. apply lookup_app_Some in E as [E|[L E]].
      + pose proof (lookup_lt_Some _ _ _ E) as Li. fold n in Li. eapply gate_ok_agree; [|apply (B i g' E)].
        constructor; [destruct (decide (i = n)); [lia|reflexivity]|]. specialize (IN i g' E). revert IN. apply List.Forall_impl. intros x Lx. destruct (decide (x = n)); [lia|reflexivity].
      + apply list_lookup_singleton_Some in E as [E <-]. assert (i = n) as -> by (unfold n; lia). clear E L.
        assert (IG : Forall (fun x => (x < n)%nat) (inputs g)). { eapply H; [exact Lk|]. rewrite app_assoc. apply list_lookup_middle. reflexivity. }
        destruct g; cbn [gate_ok inputs gate_val] in *; repeat match goal with H : Forall _ (_ :: _) |- _ => inversion H; subst; clear H end; try exact I;
          (destruct (decide (n = n)) as [_|]; [|congruence]); repeat match goal with |- context [decide (?x = n)] => destruct (decide (x = n)); [lia|] end; reflexivity.
  Qed.

  Context (w : nat -> D).
  Definition Rc (k : circuit) (t : nat) (d : D) : Prop := (t < length k)%nat /\ (satisfies F w k -> w t = d).
  Lemma Rc_mono k k' t d : extends k k' -> Rc k t d -> Rc k' t d.
  Proof. intros L [A B]. split; [pose proof (extends_length _ _ L); lia|]. intros S. apply B. eapply satisfies_prefix; eassumption. Qed.
  Lemma circuit_refines : refines F circuit_ev extends Rc.
  Proof.
    constructor.
    - apply extends_r.
    - apply extends_t.
    - apply Rc_mono.
    - intros op a b x y k v k' [La Ra] [Lb Rb] E. destruct (extends_new _ _ _ _ E) as (X & G & L); [repeat constructor; assumption|]. split; [exact X|]. split; [exact L|].
      intros S. pose proof (satisfies_prefix _ _ _ X S) as S0. rewrite <- (Ra S0), <- (Rb S0). exact (S _ _ G).
    - intros a x k v k' [La Ra] E. destruct (extends_new _ _ _ _ E) as (X & G & L); [repeat constructor; assumption|]. split; [exact X|]. split; [exact L|].
      intros S. pose proof (satisfies_prefix _ _ _ X S) as S0. rewrite <- (Ra S0), <- (neg_mul F HF). exact (S _ _ G).
    - intros c k v k' E. destruct (extends_new _ _ _ _ E) as (X & G & L); [constructor|]. split; [exact X|]. split; [exact L|]. intros S. exact (S _ _ G).
  Qed.

  Lemma muladds_ok l y d : forall k ts k', muladds l y k = (ts, k') -> Forall (fun '(a, b) => (a < length k)%nat /\ (b < length k)%nat) l -> Rc k y d ->
    extends k k' /\ Forall (fun t => (t < length k')%nat) ts /\
    (satisfies F w k' -> map w ts = zip_with (fun alpha acc => v_bin F EAdd (v_bin F EMul acc alpha) d) (map w (map fst l)) (map w (map snd l))).
  Proof.
    induction l as [|[alpha acc] l IH]; intros k ts k' E H Y; cbn [muladds] in E.
    - injection E as <- <-. split; [apply extends_r|]. split; [constructor|reflexivity].
    - inversion H as [|? ? L12 H']; subst. destruct L12 as [L1 L2]. destruct (gate_new _ k) as [t k1] eqn:E1. destruct (muladds l y k1) as [ts1 k2] eqn:E2. injection E as <- <-.
      destruct (extends_new _ _ _ _ E1) as (X1 & G1 & Lt1); [destruct Y; repeat constructor; assumption|].
      destruct (IH k1 ts1 k2 E2) as (X2 & Lts & V2); [|eapply Rc_mono; eassumption|].
      { pose proof (extends_length _ _ X1). revert H'. apply List.Forall_impl. intros [a b] [? ?]. lia. }
      split; [eapply extends_t; eassumption|]. pose proof (extends_length _ _ X2). split; [constructor; [lia|exact Lts]|]. intros S. cbn [map zip_with].
      pose proof (satisfies_prefix _ _ _ X2 S) as S1. pose proof (satisfies_prefix _ _ _ X1 S1) as S0. f_equal; [|apply V2, S].
      rewrite (S1 _ _ G1). destruct Y as [_ Y]. rewrite (Y S0). reflexivity.
  Qed.
  Lemma zip_fst {A B} (l : list A) (m : list B) (g : A -> D) (g' : B -> D) (f : D -> D -> D) :
    zip_with f (map g (map fst (zip l m))) (map g' (map snd (zip l m))) = zip_with f (map g l) (map g' m).
  Proof. revert m. induction l as [|x l IH]; intros [|y m]; cbn; f_equal; auto. Qed.
  Lemma consume_ok t x d c k c' k' : consume_ext t x c k = (c', k') -> Rc k x d -> consumer_in k c ->
    extends k k' /\ consumer_in k' c' /\ (satisfies F w k' -> map_consumer w c' = consume F t d (map_consumer w c)).
  Proof.
    intros E X C. unfold consume_ext in E. destruct (match row_filter t c with Some f => _ | None => _ end) as [y k1] eqn:E1. destruct (muladds _ y k1) as [l k2] eqn:E2. injection E as <- <-.
    pose proof C as C0. unfold consumer_in in C. rewrite !Forall_app in C. destruct C as (CA & CC & CL). inversion CL as [|? ? C1 CL']; subst. inversion CL' as [|? ? C2 CL2]; subst. inversion CL2 as [|? ? C3 _]; subst.
    set (dy := match row_filter t (map_consumer w c) with Some f => v_bin F EMul d f | None => d end).
    assert (Y : extends k k1 /\ Rc k1 y dy).
    { assert (G : forall f, (f < length k)%nat -> gate_new (GBin EMul x f) k = (y, k1) -> extends k k1 /\ Rc k1 y (v_bin F EMul d (w f))).
      { intros f Lf E. destruct X as [Lx Vx]. destruct (extends_new _ _ _ _ E) as (X1 & G1 & Lt1); [repeat constructor; assumption|]. split; [exact X1|]. split; [exact Lt1|]. intros S. rewrite <- (Vx (satisfies_prefix _ _ _ X1 S)). exact (S _ _ G1). }
      destruct t; cbn [row_filter map_consumer] in E1, dy; try (apply G; assumption). injection E1 as <- <-. split; [apply extends_r|exact X]. }
    destruct Y as [X1 Y]. pose proof (extends_length _ _ X1) as LX.
    destruct (muladds_ok _ _ dy _ _ _ E2) as (X2 & Lts & V2); [|exact Y|].
    { apply List.Forall_forall. intros [a b] I. pose proof (in_combine_l _ _ _ _ I) as Ia. pose proof (in_combine_r _ _ _ _ I) as Ib. rewrite List.Forall_forall in CA, CC. specialize (CA _ Ia). specialize (CC _ Ib). lia. }
    pose proof (extends_length _ _ X2) as LX2. split; [eapply extends_t; eassumption|]. split.
    - unfold consumer_in. cbn [with_accs alphas accs z_last_row lagrange_first lagrange_last]. rewrite !Forall_app. split; [revert CA; apply List.Forall_impl; intros; lia|]. split; [exact Lts|]. revert CL. apply List.Forall_impl. intros; lia.
    - intros S. unfold map_consumer, consume, with_accs. cbn [alphas accs z_last_row lagrange_first lagrange_last]. f_equal. rewrite (V2 S). unfold dy. apply zip_fst.
  Qed.
  Lemma build_ext_ok h vals : vals_ok F w h vals -> forall cs ds c k, Forall2 (fun te d => expr_is F vals (snd te) d) cs ds -> only (fun t => (t < length k)%nat) h -> consumer_in k c ->
    exists c' k', build_ext h cs c k = Some (c', k') /\ extends k k' /\ consumer_in k' c' /\
      (satisfies F w k' -> map_consumer w c' = fold_left (fun c '(t, v) => consume F t v c) (combine (map fst cs) ds) (map_consumer w c)).
  Proof.
    intros HV cs ds c k H. revert c k. induction H as [|[t e] d cs ds X _ IH]; intros c k LT C; cbn [build_ext map combine fold_left].
    - exists c, k. split; [reflexivity|]. split; [apply extends_r|auto].
    - destruct (cached_eval_ok F w circuit_ev extends Rc circuit_refines h vals HV e (no_cache k) d X) as (x & st & -> & X1 & _ & R1).
      { intros p v E. split; [eapply LT, E|reflexivity]. }
      { apply no_cache_ok. }
      cbn [mbind option_bind no_cache inside] in *. destruct (consume_ext t x c (inside st)) as [c1 k1] eqn:E1. pose proof (extends_length _ _ X1) as L1.
      assert (C1 : consumer_in (inside st) c) by (unfold consumer_in in *; revert C; apply List.Forall_impl; intros; lia).
      destruct (consume_ok _ _ _ _ _ _ _ E1 R1 C1) as (X2 & C2 & V2). pose proof (extends_length _ _ X2) as L2.
      destruct (IH c1 k1) as (c' & k' & -> & X3 & C3 & V3); [intros p v E; specialize (LT p v E); cbn in LT |- *; lia|exact C2|].
      exists c', k'. split; [reflexivity|]. split; [eapply extends_t; [exact X1|]; eapply extends_t; eassumption|]. split; [exact C3|]. intros S. rewrite (V3 S). cbn [fst]. rewrite (V2 (satisfies_prefix _ _ _ X3 S)). reflexivity.
  Qed.
End Circuit.

(** ** Packed evaluation *)
Section Packed.
  Context {D : Type} (F : values D).
  Lemma packed_ok h vals cs ds c : vals_ok F (fun x => x) h vals -> Forall2 (fun te d => expr_is F vals (snd te) d) cs ds ->
    build_packed F h cs c = Some (fold_left (fun c '(t, v) => consume F t v c) (combine (map fst cs) ds) c).
  Proof.
    intros HV H. unfold build_packed.
    destruct (cached_list_ok F (fun x => x) (pure F) (fun _ _ => True) (fun _ v d => v = d) (pure_refines F) h vals HV (map snd cs) ds (no_cache tt)) as (vs & st & -> & _ & _ & R).
    - induction H; constructor; auto.
    - intros p v _. reflexivity.
    - apply no_cache_ok.
    - cbn [mbind option_bind]. assert (vs = ds) as -> by (clear - R; induction R; congruence). reflexivity.
  Qed.
  Lemma zip_zip (f g : D -> D -> D) (l m : list D) : zip_with f l (zip_with g l m) = zip_with (fun a b => f a (g a b)) l m.
  Proof. revert m. induction l as [|x l IH]; intros [|y m]; cbn; f_equal; auto. Qed.
  Lemma consume_combined xs : forall c, length (accs c) = length (alphas c) -> accs (fold_left (fun c '(t, v) => consume F t v c) xs c) = combined F c xs.
  Proof.
    induction xs as [|[t x] xs IH]; intros c L; cbn [fold_left].
    - unfold combined. cbn [fold_left]. revert L. generalize (alphas c) (accs c). intros l m. revert m. induction l as [|a l IH]; intros [|b m] L; cbn in L |- *; try discriminate L; [reflexivity|]. f_equal. apply IH. lia.
    - rewrite IH.
      2: { unfold consume, with_accs. cbn [accs alphas]. rewrite zip_with_length. lia. }
      unfold combined, consume, with_accs. cbn [alphas accs]. rewrite zip_zip. apply zip_with_ext; [|reflexivity|reflexivity].
      intros a b. cbn [fold_left]. destruct t; reflexivity.
  Qed.
End Packed.
