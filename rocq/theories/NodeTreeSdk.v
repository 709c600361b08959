(** The node's reduce_tree_by_address and the SDK's merkleize combine every list, in any order, in the same way. *)
From stdpp Require Import prelude.
From Verif Require Import Field RecModel SdkModel SdkSpec MerkleProofs NodeTreeModel NodeTreeSpec NodeTreeProofs.
Open Scope Z_scope.

(** ** Naturality: keys and values may be renamed *)
Section Nat.
  Context {T D : Type} {A : Type} `{EqDecision A} (inc : A -> A) (merge : A -> T -> T -> T) (two : D -> D -> D) (phi : T -> D).
  Context (K : nat -> Z -> A).
  Hypothesis K_inc : forall h q, inc (K h q) = K (S h) (q / 2).
  Hypothesis K_inj : forall h q q', K h q = K h q' -> q = q'.
  Hypothesis hom : forall a l r, phi (merge a l r) = two (phi l) (phi r).

  Lemma carry_hom a : forall s v c, map (fun p => (phi p.1, p.2)) (carry (merge a) s v c) = carry two (map (fun p => (phi p.1, p.2)) s) (phi v) c.
  Proof. induction s as [|[pv pc] s IH]; intros v c; cbn; [auto|]. destruct (pc =? c)%nat; cbn; [rewrite IH, hom; auto|auto]. Qed.
  Lemma unwind_hom a : forall s v, phi (unwind (merge a) s v) = unwind two (map (fun p => (phi p.1, p.2)) s) (phi v).
  Proof. induction s as [|[pv pc] s IH]; intros v; cbn; [auto|]. rewrite IH, hom. auto. Qed.
  Lemma rt_loop_hom a l : forall s, rt_loop two (map phi l) (map (fun p => (phi p.1, p.2)) s) =
    (map (fun p => (phi p.1, p.2)) (rt_loop (merge a) l s).1, phi <$> (rt_loop (merge a) l s).2).
  Proof.
    induction l as [|x|x y l IH] using pair_ind; intros s; cbn; auto. rewrite <- IH, carry_hom, hom. auto.
  Qed.
  Lemma reduce_hom a l : reduce_tree two (map phi l) = phi <$> reduce_tree (merge a) l.
  Proof.
    unfold reduce_tree. pose proof (rt_loop_hom a l []) as E. cbn in E. rewrite E. destruct (rt_loop (merge a) l []) as [[|[pv pc] s] [v|]]; cbn; auto.
    - rewrite unwind_hom, hom. auto.
    - rewrite unwind_hom. auto.
  Qed.
  Definition ren (h : nat) (x : Z * T) : A * T := (K h x.1, x.2).
  Definition img (x : Z * T) : Z * D := (x.1, phi x.2).
  Lemma chunks_ren h l : chunks (map (ren h) l) = map (fun g => (K h g.1, g.2)) (chunks l).
  Proof.
    induction l as [|[a t] l IH]; [auto|]. cbn. rewrite IH. destruct (chunks l) as [|[b ts] cs]; cbn; [auto|].
    destruct (decide (a = b)) as [->|N]; [rewrite decide_True by auto; auto|]. rewrite decide_False; [auto|].
    intros E. apply K_inj in E. auto.
  Qed.
  Lemma chunks_img l : chunks (map img l) = map (fun g => (g.1, map phi g.2)) (chunks l).
  Proof.
    induction l as [|[a t] l IH]; [auto|]. cbn. rewrite IH. destruct (chunks l) as [|[b ts] cs]; cbn; [auto|].
    destruct (decide (a = b)); auto.
  Qed.
  (** one step on [T] with [A] keys, and on [D] with numbers *)
  Lemma step_nat h l : exists l', by_step inc merge (map (ren h) l) = (fun x => map (ren (S h)) x) <$> l' /\
    by_step (fun a => a / 2) (fun _ => two) (map img l) = (fun x => map img x) <$> l'.
  Proof.
    unfold by_step. rewrite chunks_ren, chunks_img. induction (chunks l) as [|[a ts] cs IH]; [exists (Some []); auto|].
    destruct IH as (l' & E1 & E2). cbn [map reduce_chunks fst snd]. rewrite E1, E2, (reduce_hom (K h a)).
    destruct (reduce_tree (merge (K h a)) ts) as [t|]; cbn; [|exists None; auto]. 
    destruct l' as [l'|]; cbn; [|exists None; auto]. exists (Some ((a / 2, t) :: l')). cbn. rewrite K_inc. auto.
  Qed.
  Lemma by_nat : forall fuel h l, exists o : option (option (nat * Z * T)),
    by_address inc merge fuel (map (ren h) l) = option_map (option_map (fun y => (K y.1.1 y.1.2, y.2))) o /\
    by_address (fun a => a / 2) (fun _ => two) fuel (map img l) = option_map (option_map (fun y => (y.1.2, phi y.2))) o.
  Proof.
    induction fuel; intros h l; (destruct l as [|[a t] [|[b t'] l]]; [exists (Some None); auto|exists (Some (Some (h, a, t))); auto|]).
    - exists None. auto.
    - set (L := (a, t) :: (b, t') :: l). 
      destruct (step_nat h L) as (l' & E1 & E2).
      assert (F1 : by_address inc merge (S fuel) (map (ren h) L) = match by_step inc merge (map (ren h) L) with Some l' => by_address inc merge fuel l' | None => None end) by auto.
      assert (F2 : by_address (fun a => a / 2) (fun _ => two) (S fuel) (map img L) = match by_step (fun a => a / 2) (fun _ => two) (map img L) with Some l' => by_address (fun a => a / 2) (fun _ => two) fuel l' | None => None end) by auto.
      rewrite F1, F2, E1, E2. destruct l' as [l'|]; cbn; [|exists None; auto]. apply IHfuel.
  Qed.
End Nat.

(** ** Termination for lists in any order *)
Section Term.
  Context {D : Type} (two : D -> D -> D).
  Notation bst := (by_step (fun a => a / 2) (fun _ : Z => two)).
  Notation bad := (by_address (fun a => a / 2) (fun _ : Z => two)).
  Lemma chunks_nonempty (l : list (Z * D)) : Forall (fun g => g.2 <> []) (chunks l).
  Proof.
    induction l as [|[a t] l IH]; [constructor|]. cbn. destruct (chunks l) as [|[b ts] cs]; [repeat constructor; done|].
    inversion IH; subst. destruct (decide (a = b)); repeat (constructor; auto); done.
  Qed.
  Lemma chunks_keys (P : Z -> Prop) (l : list (Z * D)) : Forall (fun x => P x.1) l -> Forall (fun g => P g.1) (chunks l).
  Proof.
    induction l as [|[a t] l IH]; intros F; [constructor|]. inversion F; subst. specialize (IH ltac:(auto)). cbn.
    destruct (chunks l) as [|[b ts] cs]; [repeat constructor; auto|]. inversion IH; subst. destruct (decide (a = b)); repeat (constructor; auto).
  Qed.
  Lemma chunks_nil (l : list (Z * D)) : chunks l = [] -> l = [].
  Proof. destruct l as [|[a t] l]; [auto|]. cbn. destruct (chunks l) as [|[b ts] cs]; [done|]. destruct (decide (a = b)); done. Qed.
  Lemma chunks_adj (l : list (Z * D)) i g g' : chunks l !! i = Some g -> chunks l !! S i = Some g' -> g.1 <> g'.1.
  Proof.
    revert i g g'. induction l as [|[a t] l IH]; intros i g g' E1 E2; [done|]. cbn in E1, E2.
    destruct (chunks l) as [|[b ts] cs] eqn:Ec; [destruct i; done|]. destruct (decide (a = b)) as [->|Nab].
    - destruct i; cbn in *; [injection E1 as <-; apply (IH 0%nat (b, ts) g'); auto|apply (IH (S i)); auto].
    - destruct i; cbn in *; [injection E1 as <-; injection E2 as <-; auto|apply (IH i); auto].
  Qed.
  Lemma reduce_chunks_ok (cs : list (Z * list D)) : Forall (fun g => g.2 <> []) cs ->
    exists l', reduce_chunks (fun a => a / 2) (fun _ : Z => two) cs = Some l' /\ map fst l' = map (fun g => g.1 / 2) cs.
  Proof.
    induction cs as [|[a ts] cs IH]; intros F; [exists []; auto|]. inversion F; subst. destruct (IH ltac:(auto)) as (l' & E & M).
    destruct (reduce_tree_rounds two ts) as (x & Ex & _); [auto|]. exists ((a / 2, x) :: l'). cbn. rewrite Ex, E, M. auto.
  Qed.
  Lemma bst_ok l : exists l', bst l = Some l' /\ map fst l' = map (fun g => g.1 / 2) (chunks l).
  Proof. apply reduce_chunks_ok, chunks_nonempty. Qed.
  Lemma bad_terminates : forall fuel (h : nat) (l : list (Z * D)), (65 - h <= fuel)%nat -> l <> [] ->
    (if (h <? 65)%nat then Forall (fun x => 0 <= x.1 < 2 ^ (64 - Z.of_nat h)) l else length l = 1%nat) -> exists k d, bad fuel l = Some (Some (k, d)).
  Proof.
    induction fuel; intros h l Lf N F; (destruct l as [|[a t] [|[b t'] l]]; [done|eexists _, _; reflexivity|]).
    - exfalso. replace (h <? 65)%nat with false in F by (symmetry; apply Nat.ltb_ge; lia). done.
    - set (L := (a, t) :: (b, t') :: l) in *. 
      assert (EB : bad (S fuel) L = match bst L with Some l' => bad fuel l' | None => None end) by auto.
      rewrite EB. destruct (bst_ok L) as (l' & E & M). rewrite E. 
      destruct (Nat.ltb_spec h 65) as [Lh|Lh]; [|done]. apply (IHfuel (S h)); [lia| |].
      + intros ->. symmetry in M. apply map_eq_nil in M. apply chunks_nil in M. done.
      + destruct (Nat.ltb_spec (S h) 65) as [Lh'|Lh'].
        * apply List.Forall_forall. intros x I. apply (in_map fst) in I. rewrite M in I. apply in_map_iff in I as (g & <- & I).
          pose proof (chunks_keys (fun k => 0 <= k < 2 ^ (64 - Z.of_nat h)) L F) as Fk. rewrite List.Forall_forall in Fk. specialize (Fk g I). cbn in Fk.
          rewrite Nat2Z.inj_succ. replace (64 - Z.of_nat h) with (Z.succ (64 - Z.succ (Z.of_nat h))) in Fk by lia.
          rewrite Z.pow_succ_r in Fk by lia. pose proof (Z.div_mod g.1 2). pose proof (Z.mod_pos_bound g.1 2). lia.
        * assert (h = 64%nat) as -> by lia. change (2 ^ (64 - Z.of_nat 64)) with 1 in F.
          pose proof (chunks_keys (fun k => 0 <= k < 1) L F) as Fk.
          rewrite <- (map_length fst l'), M, map_length.
          destruct (chunks L) as [|g [|g' cs]] eqn:Ec; [apply chunks_nil in Ec; done|auto|].
          exfalso. apply (chunks_adj L 0 g g'); [rewrite Ec; auto|rewrite Ec; auto|].
          inversion Fk as [|? ? F1 F']; subst. inversion F' as [|? ? F2 F'']; subst. cbn in F1, F2. lia.
  Qed.
End Term.

(** ** What the node's loop computes does not change under the SDK's steps *)
Section Agree.
  Variable H : list Z -> digest.
  Notation two := (two_to_one H).
  Notation bst := (by_step (fun a => a / 2) (fun _ : Z => two)).
  Notation bad := (by_address (fun a => a / 2) (fun _ : Z => two)).
  Inductive NV : list (Z * digest) -> digest -> Prop :=
  | NVone x : NV [x] x.2
  | NVstep a b l l' d : bst (a :: b :: l) = Some l' -> NV l' d -> NV (a :: b :: l) d.
  Lemma NV_fun l d : NV l d -> forall d', NV l d' -> d = d'.
  Proof.
    induction 1 as [x|a b l l' d E N IH]; intros d' N'; inversion N'; subst; auto. apply IH. congruence.
  Qed.
  Lemma bad_NV : forall fuel l k d, bad fuel l = Some (Some (k, d)) -> NV l d.
  Proof.
    induction fuel; intros l k d E; (destruct l as [|[a t] [|[b t'] l]]; [done|cbn in E; injection E as <- <-; constructor|]); [done|].
    set (L := (a, t) :: (b, t') :: l) in *. 
    assert (EB : bad (S fuel) L = match bst L with Some l' => bad fuel l' | None => None end) by auto.
    rewrite EB in E. destruct (bst L) as [l'|] eqn:El; [|done]. eapply NVstep; eauto.
  Qed.
  Lemma reduce_round ts : reduce_tree two (round two ts) = reduce_tree two ts.
  Proof.
    destruct ts as [|t ts]; [auto|]. destruct (reduce_tree_rounds two (t :: ts)) as (x & Ex & Rx); [done|].
    destruct (reduce_tree_rounds two (round two (t :: ts))) as (y & Ey & Ry). { destruct ts; done. }
    rewrite Ex, Ey. f_equal. eapply Rd_fun; [exact Ry|]. apply Rd_round. auto.
  Qed.
  (** a list is runs of equal keys *)
  Lemma run_ind (P : list (Z * digest) -> Prop) : P [] ->
    (forall k ts rest, ts <> [] -> match rest with [] => True | x :: _ => k <> x.1 end -> P rest -> P (map (fun t => (k, t)) ts ++ rest)) ->
    forall l, P l.
  Proof.
    intros P0 P1 l. 
    assert (Ex : forall l, exists cs, l = concat (map (fun g : Z * list digest => map (fun t => (g.1, t)) g.2) cs) /\ Forall (fun g => g.2 <> []) cs /\
      (forall i g g', cs !! i = Some g -> cs !! S i = Some g' -> g.1 <> g'.1)).
    { clear. intros l. exists (chunks l). split; [|split; [apply chunks_nonempty|apply chunks_adj]].
      induction l as [|[a t] l IH]; [auto|]. cbn. rewrite IH at 1. destruct (chunks l) as [|[b ts] cs]; [auto|].
      destruct (decide (a = b)) as [->|Nab]; auto. }
    destruct (Ex l) as (cs & -> & F & A). clear Ex. induction cs as [|[k ts] cs IH]; [auto|]. inversion F as [|? ? F1 F2]; subst. cbn. apply P1; [auto| |].
    - destruct cs as [|[k' ts'] cs]; [exact I|]. inversion F2 as [|? ? F3 F4]; subst. cbn in F3. destruct ts' as [|t' ts']; [done|]. cbn. apply (A 0%nat (k, ts) (k', t' :: ts')); auto.
    - apply IH; auto. intros i g g' E1 E2. apply (A (S i)); auto.
  Qed.
  Lemma sweep_run k : forall ts rest, match rest with [] => True | x :: _ => k <> fst x end ->
    sweep H (map (fun t => (k, t)) ts ++ rest) = map (fun t => (k, t)) (round two ts) ++ sweep H rest.
  Proof.
    intros ts. induction ts as [|x|x y ts IH] using pair_ind; intros rest D; [auto| |].
    - cbn [map app]. destruct rest as [|z rest]; [auto|]. rewrite sweep_cons2. cbn [fst snd].
      replace (k =? fst z) with false by (symmetry; apply Z.eqb_neq; auto). auto.
    - cbn [map app round]. rewrite sweep_cons2. cbn [fst snd]. rewrite Z.eqb_refl, IH by auto. auto.
  Qed.
  Lemma sweep_key rest k : match rest with [] => True | x :: _ => k <> fst x end -> match sweep H rest with [] => True | (k', _) :: _ => k <> k' end.
  Proof. destruct rest as [|x rest]; [auto|]. destruct (sweep_head H x rest) as (d & r & ->). auto. Qed.
  Lemma chunks_sweep l : reduce_chunks (fun a => a / 2) (fun _ : Z => two) (chunks (sweep H l)) = reduce_chunks (fun a => a / 2) (fun _ : Z => two) (chunks l).
  Proof.
    induction l as [|k ts rest N D IH] using run_ind; [auto|]. rewrite sweep_run by auto.
    rewrite chunks_run; [|destruct ts as [|? [|? ?]]; done|apply sweep_key; auto].
    rewrite (chunks_run k ts rest) by (auto; destruct rest as [|[]]; auto). cbn [reduce_chunks]. rewrite reduce_round, IH. auto.
  Qed.
  Lemma bst_one x : bst [x] = Some [(x.1 / 2, x.2)]. Proof. destruct x. auto. Qed.
  Lemma NV_sweep l d : NV (sweep H l) d -> NV l d.
  Proof.
    intros N. destruct l as [|a [|b l]]; [inversion N|auto|].
    assert (E : bst (a :: b :: l) = bst (sweep H (a :: b :: l))) by (symmetry; apply chunks_sweep).
    remember (sweep H (a :: b :: l)) as s. inversion N; subst.
    - eapply NVstep; [rewrite E, <- H0, bst_one; reflexivity|]. apply (NVone (_, _)).
    - eapply NVstep; [|eassumption]. congruence.
  Qed.
  Lemma bst_distinct : forall l, AdjGe 1 l -> bst l = Some (shl 1 l).
  Proof.
    unfold by_step. induction l as [|[a t] l IH]; intros A; [auto|].
    change ((a, t) :: l) with (map (fun t => (a, t)) [t] ++ l). rewrite chunks_run; [|done|].
    - cbn [reduce_chunks]. rewrite IH by (destruct l; [auto|apply A]). cbn. rewrite Z.shiftr_div_pow2 by lia. auto.
    - destruct l as [|[b t'] l]; [auto|]. intros ->. destruct A as (A & _). cbn in A. unfold height_diff in A. rewrite Z.lxor_nilpotent in A. cbn in A. lia.
  Qed.
  Lemma shl_shl a b l : 0 <= a -> 0 <= b -> shl a (shl b l) = shl (b + a) l.
  Proof. intros. unfold shl. rewrite map_map. apply map_ext. intros x. cbn. rewrite Z.shiftr_shiftr by lia. auto. Qed.
  Lemma hd_shift a b : 0 <= a < 2 ^ 64 -> 0 <= b < 2 ^ 64 -> 1 <= height_diff a b -> height_diff (Z.shiftr a 1) (Z.shiftr b 1) = height_diff a b - 1.
  Proof.
    intros Ba Bb L.
    assert (R : forall x, 0 <= x < 2 ^ 64 -> 0 <= Z.shiftr x 1 < 2 ^ 64).
    { intros x Bx. rewrite Z.shiftr_div_pow2 by lia. change (2 ^ 1) with 2. pose proof (Z.div_mod x 2). pose proof (Z.mod_pos_bound x 2). lia. }
    assert (Q : forall k, 0 <= k -> height_diff (Z.shiftr a 1) (Z.shiftr b 1) <= k <-> height_diff a b <= k + 1).
    { intros k Bk. rewrite (hd_le _ _ k), (hd_le _ _ (k + 1)) by (auto; lia). rewrite !Z.shiftr_div_pow2, !Z.div_div by (try apply Z.pow_pos_nonneg; lia).
      rewrite <- Z.pow_add_r by lia. rewrite (Z.add_comm 1). tauto. }
    pose proof (hd_nonneg _ _ (R a Ba) (R b Bb)) as P0.
    pose proof (proj2 (Q (height_diff a b - 1) ltac:(lia)) ltac:(lia)).
    pose proof (proj1 (Q (height_diff (Z.shiftr a 1) (Z.shiftr b 1)) P0) ltac:(lia)). lia.
  Qed.
  Lemma Rng_shl s l : 0 <= s -> Rng l -> Rng (shl s l).
  Proof.
    intros Ps R. apply List.Forall_forall. intros x I. apply in_map_iff in I as (y & <- & I). unfold Rng in R. rewrite List.Forall_forall in R.
    specialize (R y I). cbn. rewrite Z.shiftr_div_pow2 by lia. pose proof (Z.pow_pos_nonneg 2 s). split; [apply Z.div_pos; lia|].
    apply Z.le_lt_trans with (fst y); [|lia]. apply Z.div_le_upper_bound; [lia|]. nia.
  Qed.
  Lemma AdjGe_shl s l : 0 <= s -> Rng l -> AdjGe (s + 1) l -> AdjGe s (shl 1 l).
  Proof.
    intros Ps. induction l as [|a [|b l] IH]; intros R A; [auto|exact I|]. cbn [shl map]. inversion R as [|? ? Ra R']; subst. inversion R' as [|? ? Rb R'']; subst.
    destruct A as (A & A'). split; [|apply IH; auto]. cbn [fst]. rewrite hd_shift; auto; lia.
  Qed.
  Lemma NV_shl : forall (s : nat) l d, Rng l -> AdjGe (Z.of_nat s) l -> NV (shl (Z.of_nat s) l) d -> NV l d.
  Proof.
    induction s; intros l d R A N.
    { cbn in N. rewrite shl0 in N. auto. }
    rewrite Nat2Z.inj_succ in *. destruct l as [|a [|b l]]; [inversion N|inversion N; subst; exact (NVone a)|].
    eapply NVstep. { apply bst_distinct. clear -A. revert A. generalize (a :: b :: l). induction l0 as [|x [|y l'] IH]; intros A; [auto|exact I|].
      destruct A as (A & A'). split; [lia|apply IH; auto]. }
    apply IHs; [apply Rng_shl; [lia|auto]|apply AdjGe_shl; [lia|auto|auto]|].
    rewrite shl_shl by lia. replace (1 + Z.of_nat s) with (Z.succ (Z.of_nat s)) by lia. auto.
  Qed.
  Lemma AdjGe_mono h h' l : h <= h' -> AdjGe h' l -> AdjGe h l.
  Proof. intros L. induction l as [|x [|y l'] IH]; intros A; [auto|exact I|]. destruct A as (A & A'). split; [lia|apply IH; auto]. Qed.
  Lemma Rng_sweep l : Rng l -> Rng (sweep H l).
  Proof. apply (sweep_Forall H (fun a => 0 <= a < 2 ^ 64)). Qed.
  Lemma minadj_nonneg : forall l m, 0 <= m -> Rng l -> 0 <= minadj m l.
  Proof.
    induction l as [|x [|y l'] IH]; intros m Pm R; [auto|auto|]. rewrite minadj_cons2. inversion R as [|? ? Ra R']; subst. inversion R' as [|? ? Rb R'']; subst. 
    apply IH; auto. pose proof (hd_nonneg _ _ Ra Rb). lia.
  Qed.
  Lemma loop_NV checks : forall fuel l h d, Rng l -> 0 <= h -> AdjGe h l -> l <> [] -> merkle_loop H checks fuel l h = Done d -> NV l d.
  Proof.
    induction fuel; intros l h d R Ph A N E; (destruct l as [|a [|b l]]; [done|cbn in E; injection E as <-; apply NVone|]); [done|].
    set (L := a :: b :: l) in *.
    assert (EB : merkle_loop H checks (S fuel) L h = match merkleize_step H checks L h with Some (l', h') => merkle_loop H checks fuel l' h' | None => Panicked end).
    { cbn. destruct ((64 <=? h) && checks); auto. }
    rewrite EB in E. 
    assert (ES : merkleize_step H checks L h = None \/ merkleize_step H checks L h = Some (sweep H (shl (h mod 64) L), minadj U32_MAX (sweep H (shl (h mod 64) L)))).
    { unfold L. cbn [merkleize_step]. destruct ((64 <=? h) && checks); [auto|]. right. erewrite step_loop_spec by reflexivity. reflexivity. }
    destruct ES as [ES|ES]; rewrite ES in E; [done|].
    pose proof (Z.mod_pos_bound h 64 ltac:(lia)) as Bm. pose proof (Z.mod_le h 64 ltac:(lia) ltac:(lia)).
    assert (Rs : Rng (sweep H (shl (h mod 64) L))) by (apply Rng_sweep, Rng_shl; [lia|auto]).
    apply IHfuel in E; [| |apply minadj_nonneg; [done|auto]|apply minadj_adj|]; auto.
    - apply NV_sweep in E. rewrite <- (Z2Nat.id (h mod 64)) in E by lia. apply NV_shl in E; auto. rewrite Z2Nat.id by lia. eapply AdjGe_mono; [|exact A]. lia.
    - intros E0. destruct (sweep_head H (Z.shiftr (fst a) (h mod 64), snd a) (shl (h mod 64) (b :: l))) as (dd & r & E1). 
      change (sweep H (shl (h mod 64) L) = (fst (Z.shiftr (fst a) (h mod 64), snd a), dd) :: r) in E1. rewrite E0 in E1. done.
  Qed.
  Lemma AdjGe_0 l : Rng l -> AdjGe 0 l.
  Proof.
    induction l as [|x [|y l2] IH]; intros R; [exact I|exact I|]. pose proof (List.Forall_inv R) as Ra. pose proof (List.Forall_inv_tail R) as R2. pose proof (List.Forall_inv R2) as Rb.
    split; [apply hd_nonneg; auto|apply IH; auto].
  Qed.
  Theorem merkleize_by_address checks fuel l d : l <> [] -> LeafRange l -> merkleize H checks fuel l = Done d ->
    exists k, bad 65 l = Some (Some (k, d)).
  Proof.
    intros N R E. assert (R' : Rng l) by (eapply Forall_impl; [|exact R]; intros x; unfold Word.u64; lia).
    apply loop_NV in E; [|auto|lia|apply AdjGe_0; auto|auto].
    destruct (bad_terminates two 65 0 l) as (k & d' & E'); [lia|auto| |].
    { cbn. eapply Forall_impl; [|exact R']. intros x; cbn; lia. }
    exists k. rewrite E'. do 3 f_equal. eapply NV_fun; [|exact E]. eapply bad_NV; eauto.
  Qed.
End Agree.
