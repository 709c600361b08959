(** Proofs about reduce_tree, reduce_tree_by_address, branch addresses and the cast tree. *)
From stdpp Require Import prelude.
From Verif Require Import Field RecModel SdkModel SdkSpec NodeTreeModel NodeTreeSpec.
Open Scope Z_scope.

Section Red.
  Context {T : Type} (merge : T -> T -> T).
  Notation Rd := (Rounds merge).
  Notation rnd := (round merge).

  Lemma pair_ind (P : list T -> Prop) : P [] -> (forall x, P [x]) -> (forall a b l, P l -> P (a :: b :: l)) -> forall l, P l.
  Proof.
    intros P0 P1 P2. fix IH 1. intros [|a [|b l]]; [exact P0|apply P1|apply P2, IH].
  Qed.
  Lemma round_len l : (2 * length (rnd l) = length l \/ 2 * length (rnd l) = S (length l))%nat.
  Proof. induction l as [|x|a b l IH] using pair_ind; cbn in *; lia. Qed.
  Lemma round_app l1 l2 : Nat.even (length l1) = true -> rnd (l1 ++ l2) = rnd l1 ++ rnd l2.
  Proof. induction l1 as [|x|a b l IH] using pair_ind; cbn; intros E; [auto|discriminate|]. rewrite IH; auto. Qed.
  Lemma Rd_round l x : Rd l x -> Rd (rnd l) x.
  Proof. intros R. inversion R; subst; auto. Qed.
  Lemma Rd_round' l x : l <> [] -> Rd (rnd l) x -> Rd l x.
  Proof. destruct l as [|a [|b l]]; intros N R; [done| |]. - auto. - constructor; auto. Qed.
  Lemma Rd_nonempty l x : Rd l x -> l <> [].
  Proof. intros R. inversion R; done. Qed.
  Lemma Rd_exists : forall n l, (length l <= n)%nat -> l <> [] -> exists x, Rd l x.
  Proof.
    induction n; intros l L N. { destruct l; [done|cbn in L; lia]. }
    destruct l as [|a [|b l]]; [done|eexists; constructor|].
    destruct (IHn (rnd (a :: b :: l))) as (x & R).
    - pose proof (round_len (a :: b :: l)). cbn [length] in *. lia.
    - cbn. done.
    - exists x. constructor. auto.
  Qed.
  Lemma Rd_fun l x : Rd l x -> forall y, Rd l y -> x = y.
  Proof.
    induction 1 as [x|a b l x R IH]; intros y R'.
    - inversion R'; auto.
    - inversion R'; subst. auto.
  Qed.
  Lemma even_pow k : Nat.even (2 ^ S k) = true.
  Proof. cbn [Nat.pow]. rewrite Nat.even_mul. auto. Qed.
  (** the key fact: a full block followed by at most as many elements *)
  Lemma Rd_app : forall k l1 l2 x1 x2, length l1 = (2 ^ k)%nat -> (length l2 <= 2 ^ k)%nat -> Rd l1 x1 -> Rd l2 x2 ->
    Rd (l1 ++ l2) (merge x1 x2).
  Proof.
    induction k; intros l1 l2 x1 x2 L1 L2 R1 R2.
    - destruct l1 as [|a [|]]; cbn in L1; try lia. inversion R1; subst.
      destruct l2 as [|b [|]]; cbn in L2; try lia; [inversion R2|]. inversion R2; subst.
      cbn. constructor. cbn. constructor.
    - apply Rd_round'. { pose proof (Rd_nonempty _ _ R1). destruct l1; done. }
      rewrite round_app by (rewrite L1; apply even_pow).
      apply IHk.
      + pose proof (round_len l1). cbn [Nat.pow] in L1. lia.
      + pose proof (round_len l2). cbn [Nat.pow] in L2. lia.
      + apply Rd_round; auto.
      + apply Rd_round; auto.
  Qed.

  (** the stack: blocks of growing powers of two, the last block on top *)
  Inductive Stk : list (T * nat) -> list T -> Prop :=
  | SNil : Stk [] []
  | SCons v k s l b : Stk s l -> Rd b v -> length b = (2 ^ k)%nat ->
      match s with [] => True | (_, c) :: _ => (2 ^ k < c)%nat end -> Stk ((v, 2 ^ k)%nat :: s) (l ++ b).
  Lemma pow_lt_inv a b : (2 ^ a < 2 ^ b)%nat -> (2 * 2 ^ a <= 2 ^ b)%nat.
  Proof.
    intros L. assert (a < b)%nat. { destruct (Nat.lt_ge_cases a b); auto. pose proof (Nat.pow_le_mono_r 2 b a). lia. }
    pose proof (Nat.pow_le_mono_r 2 (S a) b). cbn [Nat.pow] in *. lia.
  Qed.
  Lemma Stk_top v c s l : Stk ((v, c) :: s) l -> exists k, c = (2 ^ k)%nat.
  Proof. intros S. inversion S; subst. eauto. Qed.
  Lemma carry_ok : forall s l b v k, Stk s l -> Rd b v -> length b = (2 ^ k)%nat ->
    match s with [] => True | (_, c) :: _ => (2 ^ k <= c)%nat end ->
    Stk (carry merge s v (2 ^ k)) (l ++ b).
  Proof.
    induction s as [|[pv pc] s IH]; intros l b v k Hs R L M; cbn [carry].
    - constructor; auto.
    - inversion Hs; subst. destruct (Nat.eqb_spec (2 ^ k0) (2 ^ k)) as [E|E].
      + rewrite <- app_assoc. replace (2 ^ k + 2 ^ k0)%nat with (2 ^ (S k))%nat by (cbn [Nat.pow]; lia). apply IH; auto.
        * apply (Rd_app k0); auto. rewrite L. lia.
        * rewrite app_length. cbn [Nat.pow]. lia.
        * destruct s as [|[v' c'] s]; [auto|]. destruct (Stk_top _ _ _ _ H2) as (k' & ->). 
          cbn [Nat.pow]. pose proof (pow_lt_inv k0 k' ltac:(auto)). lia.
      + constructor; auto. cbn. lia.
  Qed.
  Lemma unwind_ok : forall s l b v, Stk s l -> Rd b v -> match s with [] => True | (_, c) :: _ => (length b <= c)%nat end ->
    Rd (l ++ b) (unwind merge s v).
  Proof.
    induction s as [|[pv pc] s IH]; intros l b v S R M; cbn [unwind]; inversion S; subst.
    - auto.
    - rewrite <- app_assoc. apply IH; auto.
      + apply (Rd_app k); auto.
      + destruct s as [|[v' c'] s]; [auto|]. destruct (Stk_top _ _ _ _ H2) as (k' & ->).
        rewrite app_length. pose proof (pow_lt_inv k k' ltac:(auto)). lia.
  Qed.
  Lemma Stk_ge2 s : Forall (fun x : T * nat => 2 <= snd x)%nat s -> match s with [] => True | (_, c) :: _ => (2 <= c)%nat end.
  Proof. intros F. destruct s as [|[v c] s]; [auto|]. inversion F; auto. Qed.
  Lemma carry_ge2 : forall s v c, (2 <= c)%nat -> Forall (fun x : T * nat => 2 <= snd x)%nat s -> Forall (fun x : T * nat => 2 <= snd x)%nat (carry merge s v c).
  Proof.
    induction s as [|[pv pc] s IH]; intros v c L F; cbn [carry]. { constructor; auto. }
    inversion F; subst. cbn in *. destruct (Nat.eqb_spec pc c).
    - apply IH; auto. lia.
    - constructor; auto.
  Qed.
  Lemma rt_loop_ok : forall n l s done s' f, (length l <= n)%nat -> Stk s done -> Forall (fun x : T * nat => 2 <= snd x)%nat s ->
    rt_loop merge l s = (s', f) ->
    exists done', Stk s' done' /\ Forall (fun x : T * nat => 2 <= snd x)%nat s' /\ done ++ l = done' ++ match f with Some v => [v] | None => [] end.
  Proof.
    induction n; intros l s done s' f L S F E.
    { destruct l; cbn in L; [|lia]. cbn in E. injection E as <- <-. exists done. rewrite !app_nil_r. auto. }
    destruct l as [|a [|b l]]; cbn [rt_loop] in E.
    - injection E as <- <-. exists done. rewrite !app_nil_r. auto.
    - injection E as <- <-. exists done. auto.
    - apply (IHn _ _ (done ++ [a; b])) in E.
      + destruct E as (d' & S' & F' & E). exists d'. split; [auto|]. split; [auto|]. rewrite <- E, <- app_assoc. auto.
      + cbn in L. lia.
      + change 2%nat with (2 ^ 1)%nat. apply carry_ok; auto.
        * constructor. cbn. constructor.
        * apply Stk_ge2 in F. destruct s as [|[] ?]; auto.
      + apply carry_ge2; auto.
  Qed.
  Theorem reduce_tree_rounds l : l <> [] -> exists x, reduce_tree merge l = Some x /\ Rd l x.
  Proof.
    intros N. unfold reduce_tree. destruct (rt_loop merge l []) as [s f] eqn:E.
    destruct (rt_loop_ok (length l) l [] [] s f (Nat.le_refl _) SNil (List.Forall_nil _) E) as (d & S & F & Ed). cbn [app] in Ed. subst l.
    destruct s as [|[pv pc] s]; destruct f as [v|].
    - inversion S; subst. exists v. split; [auto|constructor].
    - inversion S; subst. done.
    - inversion S; subst. eexists. split; [reflexivity|]. rewrite <- app_assoc. apply unwind_ok; auto.
      + apply (Rd_app k); auto; [|constructor]. cbn. pose proof (Nat.pow_nonzero 2 k). lia.
      + destruct s as [|[v' c'] s]; [auto|]. destruct (Stk_top _ _ _ _ H2) as (k' & ->). 
        rewrite app_length. cbn. pose proof (pow_lt_inv k k' ltac:(auto)). pose proof (Nat.pow_nonzero 2 k). lia.
    - inversion S; subst. eexists. split; [reflexivity|]. rewrite app_nil_r. apply unwind_ok; auto.
      destruct s as [|[v' c'] s]; [auto|]. lia.
  Qed.
End Red.

(** ** Roots of trees *)
Section Hom.
  Context {A D : Type} (two : D -> D -> D) (f : A -> D).
  Lemma round_map l : map (root two f) (round Nd l) = round two (map (root two f) l).
  Proof. induction l as [|x|a b l IH] using pair_ind; cbn; auto. rewrite IH. auto. Qed.
  Lemma Rounds_map l t : Rounds Nd l t -> Rounds two (map (root two f) l) (root two f t).
  Proof.
    induction 1 as [x|a b l x R IH]; [constructor|]. rewrite round_map in IH. constructor. auto.
  Qed.
  Lemma Rounds_root l t : Rounds Nd (map Lf l) t -> Rounds two (map f l) (root two f t).
  Proof. intros R. apply Rounds_map in R. rewrite map_map in R. auto. Qed.
  Lemma round_leaves l : concat (map (@leaves A) (round Nd l)) = concat (map leaves l).
  Proof. induction l as [|x|a b l IH] using pair_ind; cbn; auto. rewrite IH, app_assoc. auto. Qed.
  Lemma Rounds_leaves l (t : btree A) : Rounds Nd l t -> leaves t = concat (map leaves l).
  Proof.
    induction 1 as [x|a b l x R IH]. { cbn. rewrite app_nil_r. auto. } rewrite IH, round_leaves. auto.
  Qed.
End Hom.
Lemma concat_single {A} (l : list A) : concat (map (fun x => [x]) l) = l.
Proof. induction l; cbn; f_equal; auto. Qed.
Lemma Trie_leaves {A} (addr : A -> Z) l t : Trie addr l t -> leaves t = l.
Proof.
  induction 1 as [l a t F R|l1 l2 b p t1 t2 B F1 F2 T1 IH1 T2 IH2].
  - rewrite (Rounds_leaves _ _ R), map_map. apply concat_single.
  - cbn. rewrite IH1, IH2. auto.
Qed.
Lemma Rounds_Balanced (two : SdkModel.digest -> SdkModel.digest -> SdkModel.digest) l x : Rounds two l x <-> SdkSpec.Balanced two l x.
Proof.
  assert (E : forall l, round two l = SdkSpec.pair_round two l).
  { intros k. induction k as [|y|a b k IH] using pair_ind; cbn; auto using f_equal. }
  split; induction 1; constructor; [rewrite <- E|rewrite E]; auto.
Qed.
(** a tree over addressed leaves has the SDK's prefix root, for every two-to-one function *)
Lemma Trie_PrefixRoot {A} (addr : A -> Z) (two : SdkModel.digest -> SdkModel.digest -> SdkModel.digest) (f : A -> SdkModel.digest) l t :
  Trie addr l t -> SdkSpec.PrefixRoot two (map (fun x => (addr x, f x)) l) (root two f t).
Proof.
  induction 1 as [l a t F R|l1 l2 b p t1 t2 B F1 F2 T1 IH1 T2 IH2].
  - apply (SdkSpec.PRBucket _ _ a).
    + destruct l; [inversion R|done].
    + apply List.Forall_forall. intros x I. apply in_map_iff in I as (y & <- & I). rewrite List.Forall_forall in F. cbn. auto.
    + rewrite map_map. cbn. apply Rounds_Balanced, Rounds_root. auto.
  - rewrite map_app. cbn. apply (SdkSpec.PRSplit _ _ _ b p); auto.
    + intros E. apply map_eq_nil in E. subst. apply Trie_leaves in T1. destruct t1; cbn in T1; [done|]. 
      pose proof (app_cons_not_nil). destruct (leaves t1_1) eqn:E; [|done].
      clear -E. exfalso. induction t1_1; cbn in E; [done|]. apply app_eq_nil in E as []. auto.
    + intros E. apply map_eq_nil in E. subst. apply Trie_leaves in T2. 
      clear -T2. exfalso. induction t2; cbn in T2; [done|]. apply app_eq_nil in T2 as []. auto.
    + apply List.Forall_forall. intros x I. apply in_map_iff in I as (y & <- & I). rewrite List.Forall_forall in F1. cbn. auto.
    + apply List.Forall_forall. intros x I. apply in_map_iff in I as (y & <- & I). rewrite List.Forall_forall in F2. cbn. auto.
Qed.

(** the numbered leaves of a list: pairing in rounds gives the tree over the numbers *)
Lemma pow2_Z k : Z.of_nat (2 ^ k) = 2 ^ Z.of_nat k.
Proof. rewrite Nat2Z.inj_pow. auto. Qed.
Lemma div_numbers p k i : (i < 2 ^ k)%nat -> (p * 2 ^ Z.of_nat k + Z.of_nat i) / 2 ^ Z.of_nat k = p.
Proof. intros L. pose proof (pow2_Z k). rewrite Z.add_comm, Z.div_add, Z.div_small; lia. Qed.
Lemma Rounds_numbered {A} : forall k (p : Z) (l : list (Z * A)) t, 0 <= p -> (length l <= 2 ^ k)%nat ->
  (forall i x, l !! i = Some x -> fst x = p * 2 ^ Z.of_nat k + Z.of_nat i) ->
  Rounds Nd (map Lf l) t -> Trie fst l t.
Proof.
  induction k; intros p l t Pp L N R.
  - destruct l as [|x [|y l]]; cbn in L; [inversion R| |lia]. apply (TBucket _ _ (fst x)); auto.
  - destruct (Nat.le_gt_cases (length l) (2 ^ k)) as [L'|L'].
    + apply (IHk (2 * p) l t); auto; [lia|]. intros i x E. rewrite (N i x E). rewrite Nat2Z.inj_succ, Z.pow_succ_r by lia. lia.
    + pose proof (take_drop (2 ^ k) l) as TD. 
      assert (L1 : length (take (2 ^ k) l) = (2 ^ k)%nat) by (rewrite take_length; lia).
      assert (L2 : (length (drop (2 ^ k) l) <= 2 ^ k)%nat) by (rewrite drop_length; cbn [Nat.pow] in L; lia).
      assert (L3 : (1 <= length (drop (2 ^ k) l))%nat) by (rewrite drop_length; lia).
      assert (E1 : exists t1, Rounds Nd (map Lf (take (2 ^ k) l)) t1).
      { apply (Rd_exists _ (length l)). rewrite map_length, take_length. lia.
        intros E. apply map_eq_nil in E. rewrite E in L1. cbn in L1. pose proof (Nat.pow_nonzero 2 k). lia. }
      assert (E2 : exists t2, Rounds Nd (map Lf (drop (2 ^ k) l)) t2).
      { apply (Rd_exists _ (length l)). rewrite map_length, drop_length. lia.
        intros E. apply map_eq_nil in E. rewrite E in L3. cbn in L3. lia. }
      destruct E1 as (t1 & R1), E2 as (t2 & R2).
      assert (E : t = Nd t1 t2).
      { eapply Rd_fun; [exact R|]. rewrite <- TD, map_app. apply (Rd_app Nd k); auto; rewrite map_length; auto. }
      subst t. rewrite <- TD. 
      assert (N1 : forall i x, take (2 ^ k) l !! i = Some x -> fst x = 2 * p * 2 ^ Z.of_nat k + Z.of_nat i).
      { intros i x Ex. pose proof (lookup_lt_Some _ _ _ Ex). rewrite lookup_take in Ex by lia. rewrite (N _ _ Ex), Nat2Z.inj_succ, Z.pow_succ_r by lia. lia. }
      assert (N2 : forall i x, drop (2 ^ k) l !! i = Some x -> fst x = (2 * p + 1) * 2 ^ Z.of_nat k + Z.of_nat i).
      { intros i x Ex. rewrite lookup_drop in Ex. rewrite (N _ _ Ex), Nat2Z.inj_succ, Z.pow_succ_r, Nat2Z.inj_add, pow2_Z by lia. lia. }
      apply (TSplit _ _ _ (Z.of_nat k) p); [lia| | | |].
      * apply Forall_lookup_2. intros i x Ex. rewrite (N1 _ _ Ex). apply div_numbers. apply lookup_lt_Some in Ex. lia.
      * apply Forall_lookup_2. intros i x Ex. rewrite (N2 _ _ Ex). apply div_numbers. apply lookup_lt_Some in Ex. lia.
      * apply (IHk (2 * p)); auto; lia.
      * apply (IHk (2 * p + 1)); auto; lia.
Qed.

(** ** reduce_tree_by_address *)
Section By.
  Context {A T L : Type} `{EqDecision A} (inc : A -> A) (merge : A -> T -> T -> T).
  Context (K : nat -> Z -> A) (ad : L -> Z) (mk : L -> T) (Rep : list L -> T -> Prop).
  Hypothesis K_inc : forall h q, inc (K h q) = K (S h) (q / 2).
  Hypothesis K_inj : forall h q q', K h q = K h q' -> q = q'.
  Hypothesis R_bucket : forall l a t, 0 <= a < 2 ^ 64 -> Forall (fun x => ad x = a) l -> Rounds (merge (K 0 a)) (map mk l) t -> Rep l t.
  Hypothesis R_split : forall l1 l2 (b : nat) p t1 t2,
    Forall (fun x => ad x / 2 ^ Z.of_nat b = 2 * p) l1 -> Forall (fun x => ad x / 2 ^ Z.of_nat b = 2 * p + 1) l2 ->
    Rep l1 t1 -> Rep l2 t2 -> Rep (l1 ++ l2) (merge (K (S b) p) t1 t2).

  Lemma chunks_run (k : A) (ts : list T) (rest : list (A * T)) : ts <> [] -> match rest with [] => True | (k', _) :: _ => k <> k' end ->
    chunks (map (fun t => (k, t)) ts ++ rest) = (k, ts) :: chunks (T := T) rest.
  Proof.
    intros N D. induction ts as [|t ts IH]; [done|]. destruct ts as [|t' ts].
    - cbn. destruct rest as [|[k' t'] rest]; [auto|].
      destruct (chunks ((k', t') :: rest)) as [|[b bs] cs] eqn:E.
      + cbn in E. repeat case_match; discriminate.
      + assert (b = k') as ->. { cbn in E. repeat case_match; try (injection E as ? ? ?; congruence); congruence. }
        rewrite decide_False by auto. auto.
    - rewrite map_cons. change ((k, t) :: map (fun t => (k, t)) (t' :: ts)) with ([(k, t)] ++ map (fun t => (k, t)) (t' :: ts)).
      rewrite <- app_assoc. cbn [app]. cbn [chunks]. rewrite IH by done. rewrite decide_True by auto. auto.
  Qed.

  (** groups: the leaves with one value of [ad / 2 ^ (h - 1)], and what they were reduced to *)
  Notation grp := (Z * list L * T)%type.
  Definition g_q (g : grp) := fst (fst g).
  Definition g_l (g : grp) := snd (fst g).
  Definition g_t (g : grp) := snd g.
  Definition item (h : nat) (g : grp) : A * T := (K (S h) (g_q g / 2), g_t g).
  Fixpoint incr (G : list grp) : Prop := match G with a :: ((b :: _) as r) => g_q a < g_q b /\ incr r | _ => True end.
  Definition g_ok (h : nat) (g : grp) : Prop := Rep (g_l g) (g_t g) /\ Forall (fun x => ad x / 2 ^ Z.of_nat h = g_q g) (g_l g) /\ 0 <= g_q g < 2 ^ (64 - Z.of_nat h).
  Definition GOK (h : nat) (l : list L) (G : list grp) : Prop := concat (map g_l G) = l /\ Forall (g_ok h) G /\ incr G.

  Fixpoint squeeze (h : nat) (n : nat) (G : list grp) : list grp :=
    match n, G with
    | S n, a :: b :: r => if g_q a / 2 =? g_q b / 2 then (g_q a / 2, g_l a ++ g_l b, merge (K (S h) (g_q a / 2)) (g_t a) (g_t b)) :: squeeze h n r
                        else (g_q a / 2, g_l a, g_t a) :: squeeze h n (b :: r)
    | _, [a] => [(g_q a / 2, g_l a, g_t a)]
    | _, _ => []
    end.
  Lemma half_le a b : a <= b -> a / 2 <= b / 2. Proof. intros. apply Z.div_le_mono; lia. Qed.
  Lemma half_lt a b c : a < b -> b < c -> a / 2 = b / 2 -> a / 2 < c / 2.
  Proof.
    intros. pose proof (Z.div_mod a 2). pose proof (Z.div_mod b 2). pose proof (Z.div_mod c 2).
    pose proof (Z.mod_pos_bound a 2). pose proof (Z.mod_pos_bound b 2). pose proof (Z.mod_pos_bound c 2). lia.
  Qed.
  Lemma incr_tail a G : incr (a :: G) -> incr G. Proof. destruct G; cbn; tauto. Qed.
  Lemma squeeze_item h : forall n G, (length G <= n)%nat -> incr G ->
    by_step inc merge (map (item h) G) = Some (map (item (S h)) (squeeze h n G)).
  Proof.
    unfold by_step. induction n; intros G Ln I; (destruct G as [|a [|b r]]; cbn [length] in Ln; try lia).
    - auto.
    - auto.
    - cbn. rewrite K_inc. auto.
    - cbn [squeeze]. destruct (Z.eqb_spec (g_q a / 2) (g_q b / 2)) as [E|E].
      + transitivity (reduce_chunks inc merge (chunks (map (fun t => (K (S h) (g_q a / 2), t)) [g_t a; g_t b] ++ map (item h) r))).
        { cbn [map app]. unfold item at 1 2. rewrite E. auto. }
        rewrite chunks_run; [|done|].
        * cbn [reduce_chunks]. unfold reduce_tree. cbn. rewrite IHn; [|cbn [length] in Ln; lia|apply incr_tail in I; apply incr_tail in I; auto].
          rewrite K_inc. auto.
        * destruct r as [|c r]; [exact Logic.I|]. unfold item. cbn. intros Ek. apply K_inj in Ek. destruct I as (I1 & I2 & _).
          pose proof (half_lt _ _ _ I1 I2 E). lia.
      + transitivity (reduce_chunks inc merge (chunks (map (fun t => (K (S h) (g_q a / 2), t)) [g_t a] ++ map (item h) (b :: r)))).
        { auto. }
        rewrite chunks_run; [|done|].
        * cbn [reduce_chunks]. unfold reduce_tree at 1. cbn [rt_loop]. rewrite IHn; [|cbn [length] in *; lia|apply incr_tail in I; auto].
          rewrite K_inc. auto.
        * unfold item. cbn. intros Ek. apply K_inj in Ek. auto.
  Qed.
  Lemma squeeze_head h : forall n a G, (length (a :: G) <= n)%nat -> exists g r, squeeze h n (a :: G) = g :: r /\ g_q g = g_q a / 2.
  Proof. intros [|n] a [|b G] Ln; cbn in *; try lia; [eauto|]. destruct (_ =? _); eauto. Qed.
  Lemma squeeze_incr h : forall n G, (length G <= n)%nat -> incr G -> incr (squeeze h n G).
  Proof.
    induction n; intros G Ln I; (destruct G as [|a [|b r]]; cbn [length] in Ln; try lia); try (cbn; auto; fail).
    cbn [squeeze]. destruct (Z.eqb_spec (g_q a / 2) (g_q b / 2)) as [E|E].
    - assert (I' : incr (squeeze h n r)) by (apply IHn; [cbn [length] in Ln; lia|apply incr_tail in I; apply incr_tail in I; auto]).
      destruct r as [|c r]; [destruct n; cbn; auto|].
      destruct (squeeze_head h n c r) as (g & s & Es & Eq); [cbn in *; lia|]. rewrite Es in *. cbn. split; [|auto].
      change (g_q a / 2 < g_q g). rewrite Eq. destruct I as (I1 & I2 & _). eapply half_lt; eauto.
    - assert (I' : incr (squeeze h n (b :: r))) by (apply IHn; [cbn [length] in *; lia|apply incr_tail in I; auto]).
      destruct (squeeze_head h n b r) as (g & s & Es & Eq); [cbn in *; lia|]. rewrite Es in *. cbn. split; [|auto].
      change (g_q a / 2 < g_q g). rewrite Eq. destruct I as (I1 & _). pose proof (half_le (g_q a) (g_q b)). lia.
  Qed.
  Lemma div_half h x q : x / 2 ^ Z.of_nat h = q -> x / 2 ^ Z.of_nat (S h) = q / 2.
  Proof. intros <-. rewrite Nat2Z.inj_succ, Z.pow_succ_r by lia. rewrite (Z.mul_comm 2), Z.div_div by (try apply Z.pow_pos_nonneg; lia). auto. Qed.
  Lemma g_half h g : (h < 64)%nat -> g_ok h g -> g_ok (S h) (g_q g / 2, g_l g, g_t g).
  Proof.
    intros Lh (R & F & B). split; [auto|]. cbn. split.
    - eapply Forall_impl; [|exact F]. intros x Ex. apply div_half. auto.
    - rewrite Nat2Z.inj_succ. replace (64 - Z.of_nat h) with (Z.succ (64 - Z.succ (Z.of_nat h))) in B by lia.
      rewrite Z.pow_succ_r in B by lia. pose proof (Z.div_mod (g_q g) 2). pose proof (Z.mod_pos_bound (g_q g) 2). unfold g_q in *. cbn in *. lia.
  Qed.
  Lemma squeeze_ok h : (h < 64)%nat -> forall n G, (length G <= n)%nat -> incr G -> Forall (g_ok h) G ->
    Forall (g_ok (S h)) (squeeze h n G) /\ concat (map g_l (squeeze h n G)) = concat (map g_l G).
  Proof.
    intros Lh. induction n; intros G Ln I F; (destruct G as [|a [|b r]]; cbn [length] in Ln; try lia); try (cbn; auto; fail).
    - cbn. inversion F; subst. split; [|auto]. constructor; [|auto]. apply g_half; auto.
    - cbn [squeeze]. inversion F as [|? ? Fa F']; subst. inversion F' as [|? ? Fb Fr]; subst.
      destruct (Z.eqb_spec (g_q a / 2) (g_q b / 2)) as [E|E].
      + destruct (IHn r) as (F2 & C2); [cbn [length] in Ln; lia|apply incr_tail in I; apply incr_tail in I; auto|auto|].
        split; [|cbn; rewrite C2, app_assoc; auto]. constructor; [|auto].
        destruct Fa as (Ra & Fa & Ba), Fb as (Rb & Fb & Bb). cbn in I. destruct I as (I & _).
        assert (Ea : g_q a = 2 * (g_q a / 2) /\ g_q b = 2 * (g_q a / 2) + 1).
        { pose proof (Z.div_mod (g_q a) 2). pose proof (Z.div_mod (g_q b) 2).
          pose proof (Z.mod_pos_bound (g_q a) 2). pose proof (Z.mod_pos_bound (g_q b) 2). lia. }
        split; [|split].
        * cbn. apply R_split; auto; [eapply Forall_impl; [|exact Fa]|eapply Forall_impl; [|exact Fb]]; intros x Ex; cbn in *; lia.
        * cbn. apply List.Forall_app. split; [eapply Forall_impl; [|exact Fa]|eapply Forall_impl; [|exact Fb]]; intros x Ex; cbn in *.
          -- apply div_half. auto.
          -- rewrite E. apply div_half. auto.
        * apply (g_half h a Lh). split; auto.
      + destruct (IHn (b :: r)) as (F2 & C2); [cbn [length] in *; lia|apply incr_tail in I; auto|constructor; auto|].
        split; [|cbn in *; rewrite C2; auto]. constructor; [|auto]. apply g_half; auto.
  Qed.
  Lemma incr_le G : incr G -> forall i j a b, (i < j)%nat -> G !! i = Some a -> G !! j = Some b -> g_q a < g_q b.
  Proof.
    induction G as [|x G IH]; intros I i j a b Lij Ea Eb; [done|].
    destruct j as [|j]; [lia|]. destruct i as [|i].
    - cbn in Ea. injection Ea as <-. cbn in Eb. destruct G as [|y G]; [done|]. cbn in I. destruct I as (I & I').
      destruct j as [|j]. { cbn in Eb. injection Eb as <-. auto. }
      assert (g_q y < g_q b) by (apply (IH I' 0%nat (S j)); [lia|auto|auto]). lia.
    - apply (IH (incr_tail _ _ I) i j); auto. lia.
  Qed.
  (** from stage [h + 1] on *)
  Lemma by_groups : forall fuel h l G, (64 - h <= fuel)%nat -> (h <= 64)%nat -> G <> [] -> GOK h l G ->
    exists k t, by_address inc merge fuel (map (item h) G) = Some (Some (k, t)) /\ Rep l t.
  Proof.
    induction fuel; intros h l G Lf Lh N (C & F & I).
    - assert (h = 64%nat) as -> by lia. destruct G as [|a [|b r]]; [done| |].
      + cbn. eexists _, _. split; [reflexivity|]. cbn in C. rewrite app_nil_r in C. subst l. inversion F as [|? ? Fa]; subst. apply Fa.
      + exfalso. cbn in I. inversion F as [|? ? Fa F']; subst. inversion F' as [|? ? Fb Fr]; subst.
        destruct Fa as (_ & _ & Ba), Fb as (_ & _ & Bb). cbn in Ba, Bb. change (2 ^ (64 - 64)) with 1 in *. lia.
    - destruct G as [|a [|b r]]; [done| |].
      + cbn. eexists _, _. split; [reflexivity|]. cbn in C. rewrite app_nil_r in C. subst l. inversion F as [|? ? Fa]; subst. apply Fa.
      + destruct (decide (h = 64%nat)) as [->|Nh].
        { exfalso. cbn in I. inversion F as [|? ? Fa F']; subst. inversion F' as [|? ? Fb Fr]; subst.
          destruct Fa as (_ & _ & Ba), Fb as (_ & _ & Bb). cbn in Ba, Bb. change (2 ^ (64 - 64)) with 1 in *. lia. }
        set (G := a :: b :: r) in *. 
        assert (EB : by_address inc merge (S fuel) (map (item h) G) = match by_step inc merge (map (item h) G) with Some l' => by_address inc merge fuel l' | None => None end) by auto.
        rewrite EB. rewrite (squeeze_item h (length G)) by auto.
        destruct (squeeze_ok h ltac:(lia) (length G) G ltac:(auto) I F) as (F' & C').
        apply (IHfuel (S h) l); [lia|lia| |].
        * destruct (squeeze_head h (length G) a (b :: r)) as (g & s & Es & _); [auto|]. intros E0. fold G in Es. rewrite E0 in Es. done.
        * split; [congruence|]. split; [auto|]. apply squeeze_incr; auto.
  Qed.
  (** the first step: runs of equal addresses *)
  Fixpoint runs (l : list L) : list (Z * list L) :=
    match l with
    | [] => []
    | x :: r => match runs r with (b, xs) :: cs => if ad x =? b then (b, x :: xs) :: cs else (ad x, [x]) :: (b, xs) :: cs | [] => [(ad x, [x])] end
    end.
  Lemma chunks_runs l : chunks (map (fun x => (K 0 (ad x), mk x)) l) = map (fun g => (K 0 (fst g), map mk (snd g))) (runs l).
  Proof.
    induction l as [|x l IH]; [auto|]. cbn [map chunks runs]. rewrite IH. destruct (runs l) as [|[b xs] cs]; cbn; [auto|].
    destruct (Z.eqb_spec (ad x) b) as [->|Nb]. { rewrite decide_True; auto. }
    rewrite decide_False; [auto|]. intros Ek. apply K_inj in Ek. auto.
  Qed.
  Fixpoint incr' (G : list (Z * list L)) : Prop := match G with a :: ((b :: _) as r) => fst a < fst b /\ incr' r | _ => True end.
  Lemma runs_ok l : by_addr ad l -> addr_range ad l ->
    concat (map snd (runs l)) = l /\ incr' (runs l) /\
    Forall (fun g => snd g <> [] /\ Forall (fun x => ad x = fst g) (snd g) /\ 0 <= fst g < 2 ^ 64) (runs l) /\
    match l, runs l with x :: _, g :: _ => ad x = fst g | [], [] => True | _, _ => False end.
  Proof.
    induction l as [|x l IH]; intros S R; [cbn; auto|].
    destruct IH as (C & I & F & Hd).
    { intros i j a b Lij Ea Eb. apply (S (Datatypes.S i) (Datatypes.S j)); auto. lia. }
    { inversion R; auto. }
    assert (Bx : 0 <= ad x < 2 ^ 64) by (inversion R; auto).
    cbn [runs]. destruct (runs l) as [|[b xs] cs] eqn:Er.
    - cbn in C. subst l. cbn. split; [auto|]. split; [auto|]. split; [|auto]. constructor; [|auto]. cbn. split; [done|]. split; [constructor; auto|auto].
    - destruct l as [|y l]; [done|]. rewrite Er in Hd. cbn in Hd. 
      assert (Lx : ad x <= ad y) by (apply (S 0%nat 1%nat); auto).
      inversion F as [|? ? (F1 & F2 & F3) Fr]; subst. cbn in F1, F2, F3.
      destruct (Z.eqb_spec (ad x) (ad y)) as [Eb|Nb].
      + split; [cbn in *; congruence|]. split; [destruct cs; cbn in *; auto|]. split; [|cbn; auto].
        constructor; [|auto]. cbn. split; [done|]. split; [constructor; auto|auto].
      + split; [cbn in *; congruence|]. split; [cbn; split; [lia|auto]|]. split; [|cbn; auto].
        constructor; [|constructor; auto]. cbn. split; [done|]. split; [constructor; auto|auto].
  Qed.
  Theorem by_address_ok l : l <> [] -> by_addr ad l -> addr_range ad l ->
    exists k t, by_address inc merge 65 (map (fun x => (K 0 (ad x), mk x)) l) = Some (Some (k, t)) /\ Rep l t.
  Proof.
    intros N S R. destruct (runs_ok l S R) as (C & I & F & Hd).
    destruct l as [|x [|y l]]; [done| |].
    { cbn. eexists _, _. split; [reflexivity|]. apply (R_bucket _ (ad x)); [inversion R; auto|auto|constructor]. }
    set (l0 := x :: y :: l) in *.
    assert (EB : by_address inc merge 65 (map (fun x => (K 0 (ad x), mk x)) l0) = match by_step inc merge (map (fun x => (K 0 (ad x), mk x)) l0) with Some l' => by_address inc merge 64 l' | None => None end) by auto.
    rewrite EB. unfold by_step. rewrite chunks_runs.
    assert (G : exists G, reduce_chunks inc merge (map (fun g => (K 0 (fst g), map mk (snd g))) (runs l0)) = Some (map (item 0) G) /\
      map (fun g => (g_q g, g_l g)) G = runs l0 /\ Forall (g_ok 0) G).
    { clear -F K_inc R_bucket. induction (runs l0) as [|[a xs] cs IH]; [exists []; auto|].
      inversion F as [|? ? (F1 & F2 & F3) Fr]; subst. cbn in F1, F2, F3. destruct (IH Fr) as (G & E1 & E2 & E3).
      destruct (reduce_tree_rounds (merge (K 0 a)) (map mk xs)) as (t & Et & Rt). { destruct xs; done. }
      exists ((a, xs, t) :: G). split; [|split].
      - cbn [map reduce_chunks fst snd]. rewrite Et, E1. rewrite K_inc. auto.
      - cbn. rewrite E2. auto.
      - constructor; [|auto]. split; [eapply R_bucket; eauto|]. cbn. split; [|unfold g_q; cbn; lia].
        eapply Forall_impl; [|exact F2]. intros z Ez. cbn. rewrite Z.div_1_r. auto. }
    destruct G as (G & E1 & E2 & E3). rewrite E1. apply (by_groups 64 0); [lia|lia| |].
    - intros ->. change (@nil (Z * list L) = runs l0) in E2. rewrite <- E2 in C. done.
    - split; [|split]; [|auto|].
      + rewrite <- C, <- E2, map_map. auto.
      + rewrite <- E2 in I. clear -I. induction G as [|a [|b G] IH]; cbn in *; auto. split; [apply I|]. apply IH. apply I.
  Qed.
End By.
