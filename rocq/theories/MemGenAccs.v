(** The access rows of the memory table: where they come from, their order, and the lookups. *)
From Verif Require Import MemGenModel MemGenProofs MemGenSteps StateSpec DeviceSpec DeviceProofs TableProofs CpuTrace StateProofs StateWitness WordProofs StepProofs ExecProofs EcallProofs RunProofs CpuProofs CpuComplete CpuGen WordProps PoseidonSpec PoseidonPerm PoseidonGen PoseidonLook DeviceProps.
Open Scope Z_scope.

Notation exrow := (state * instruction * aux)%type.
Definition word_accs (rows : list exrow) : list memrow :=
  omap mem_of_step rows ++ flat_map mem_of_word (generate_half_trace rows) ++ flat_map mem_of_word (generate_full_trace rows).
Definition tape_accs (rows : list exrow) : list memrow := flat_map (fun o => omap mem_of_sd (generate_sd_trace o rows)) tape_order.
Definition accs_of (rows : list exrow) (sponge : list sprow) : list memrow :=
  (word_accs rows ++ tape_accs rows ++ flat_map mem_of_sponge sponge) ++ flat_map mem_of_ob (generate_ob_trace sponge).

Lemma in_omap {A B} (h : A -> option B) l y : In y (omap h l) <-> exists x, In x l /\ h x = Some y.
Proof.
  induction l as [|x l IH]; [split; [intros []|intros (z & [] & _)]|]. change (omap h (x :: l)) with (match h x with Some y => y :: omap h l | None => omap h l end). destruct (h x) as [q|] eqn:E.
  - cbn [In]. rewrite IH. split; [intros [<-|(z & I & Z0)]; [exists x; auto|exists z; auto]|]. intros (z & [<-|I] & Z0); [left; congruence|right; eauto].
  - rewrite IH. cbn [In]. split; [intros (z & I & Z0); eauto|intros (z & [<-|I] & Z0); [congruence|eauto]].
Qed.
Lemma pad_word_keeps n t q : In q t -> In q (pad_word n t).
Proof. intros I. unfold pad_word, pad_with. apply in_or_app. auto. Qed.
Lemma idle_word q : w_store q = 0 -> w_load q = 0 -> mem_of_word q = [].
Proof. intros S L. unfold mem_of_word, w_executed. rewrite S, L. reflexivity. Qed.
Lemma in_pad_word (g : exrow -> wordrow) h n (rows : list exrow) r :
  In r (flat_map mem_of_word (pad_word n (map g (List.filter h rows)))) <-> exists x, In x rows /\ h x = true /\ In r (mem_of_word (g x)).
Proof.
  rewrite in_flat_map. split.
  - intros (q & I & J). apply pad_word_in in I as [I|(S & L & _)]; [|rewrite idle_word in J by auto; destruct J]. apply in_map_iff in I as (x & <- & I). apply filter_In in I as [I H]. eauto.
  - intros (x & I & H & J). exists (g x). split; [|exact J]. apply pad_word_keeps. apply in_map, filter_In. auto.
Qed.
Lemma in_words rows r : In r (word_accs rows) <-> exists x, In x rows /\ In r (step_mem x).
Proof.
  unfold word_accs, generate_half_trace, generate_full_trace. rewrite !in_app_iff, in_omap.
  rewrite (in_pad_word (fun '(s, i, a) => gen_half_row s i a) (fun '(_, i, _) => is_half_op (iop i)) 2 rows r), (in_pad_word (fun '(s, i, a) => gen_full_row s i a) (fun '(_, i, _) => is_full_op (iop i)) 4 rows r).
  split.
  - intros [(x & I & E)|[([[s i] a] & I & H & J)|([[s i] a] & I & H & J)]].
    + exists x. split; [exact I|]. destruct x as [[s i] a]. unfold step_mem. rewrite E. left. reflexivity.
    + exists (s, i, a). split; [exact I|]. unfold step_mem. rewrite H. rewrite !in_app_iff. auto.
    + exists (s, i, a). split; [exact I|]. unfold step_mem. rewrite H. rewrite !in_app_iff. auto.
  - intros ([[s i] a] & I & J). unfold step_mem in J. rewrite !in_app_iff in J. destruct J as [J|[J|J]].
    + left. exists (s, i, a). split; [exact I|]. destruct (mem_of_step (s, i, a)); [destruct J as [->|[]]; reflexivity|destruct J].
    + right. left. exists (s, i, a). destruct (is_half_op (iop i)) eqn:H; [auto|destruct J].
    + right. right. exists (s, i, a). destruct (is_full_op (iop i)) eqn:H; [auto|destruct J].
Qed.
Section WithHash.
Variable permute : list Z -> list Z.
Hypothesis permute12 : forall l, state12 (permute l).
Variable utf8_ok : list Z -> bool.
Notation step_ok := (step_ok permute utf8_ok).
Notation call_entry := (call_entry permute).

Lemma in_gen_sd c a d r : In r (omap mem_of_sd (gen_sd_rows c a d)) <-> exists k b, d !! k = Some b /\ r = mkMemRow 0 (wadd a (Z.of_nat k)) c 1 0 0 b.
Proof.
  rewrite in_omap. split.
  - intros (q & I & E). apply In_lookup in I as [[|k] J]; [injection J as <-; discriminate|]. rewrite gen_sd_lookup in J. destruct (d !! k) as [b|] eqn:D; [|discriminate J]. injection J as <-. injection E as <-. eauto.
  - intros (k & b & E & ->). exists (sd_byte_row c a d k b). split; [|reflexivity]. apply (lookup_In _ (S k)). rewrite gen_sd_lookup, E. reflexivity.
Qed.
Lemma read_call_order n o : read_call n = Some o -> In o tape_order /\ o <> SdNone.
Proof. unfold read_call, tape_order. repeat match goal with |- context [if ?b then _ else _] => destruct b end; intros H; try discriminate H; injection H as <-; (split; [cbn; tauto|discriminate]). Qed.
Lemma order_not_none o : In o tape_order -> o <> SdNone.
Proof. unfold tape_order. cbn [In]. intros H. decompose [or] H; subst; try discriminate; contradiction. Qed.
Lemma in_tapes p rows r : program_ok p -> Forall (step_ok p) rows ->
  In r (tape_accs rows) <-> exists s i a, In (s, i, a) rows /\ exists o k b, iop i = ECALL /\ read_call (reg s REG_A0) = Some o /\
    take (Z.to_nat (reg s REG_A2)) (available o s) !! k = Some b /\ r = stored s (wadd (reg s REG_A1) (Z.of_nat k), b).
Proof.
  intros PO F. unfold tape_accs. rewrite in_flat_map.
  assert (G : forall o, o <> SdNone -> In r (omap mem_of_sd (generate_sd_trace o rows)) <-> exists x c a d, In x rows /\ tape_read o x = Some (c, a, d) /\ In r (omap mem_of_sd (gen_sd_rows (c mod P) a d))).
  { intros o Ho. rewrite (generated_blocks permute utf8_ok p o rows PO F Ho). rewrite in_omap. split.
    - intros (q & I & E). unfold pad_with in I. apply in_app_iff in I as [I|I]; [|apply repeat_spec in I; subst q; discriminate]. unfold blocks in I. apply in_flat_map in I as ([[c a] d] & I & J). apply in_map_iff in I as ([[c0 a0] d0] & E0 & I).
      unfold tape_reads in I. apply in_omap in I as (x & I & Ex). injection E0 as <- <- <-. exists x, c0, a0, d0. split; [exact I|]. split; [exact Ex|]. apply in_omap. eauto.
    - intros (x & c & a & d & I & Ex & J). apply in_omap in J as (q & J & E). exists q. split; [|exact E]. unfold pad_with. apply in_or_app. left. unfold blocks. apply in_flat_map. exists (c mod P, a, d). split; [|exact J].
      apply in_map_iff. exists (c, a, d). split; [reflexivity|]. unfold tape_reads. apply in_omap. eauto. }
  split.
  - intros (o & Io & I). apply (G o (order_not_none o Io)) in I as ([[s i] a0] & c & a & d & I & Ex & J). apply in_gen_sd in J as (k & b & E & ->). unfold tape_read in Ex.
    destruct (bool_decide (iop i = ECALL) && bool_decide (read_call (reg s REG_A0) = Some o)) eqn:Q; [|discriminate]. injection Ex as <- <- <-. apply andb_true_iff in Q as [Q1 Q2]. apply bool_decide_eq_true in Q1, Q2.
    exists s, i, a0. split; [exact I|]. exists o, k, b. repeat split; auto.
  - intros (s & i & a & I & o & k & b & Q & RC & E & ->). destruct (read_call_order _ _ RC) as [Io Ho]. exists o. split; [exact Io|]. apply (G o Ho). exists (s, i, a), (clk s), (reg s REG_A1), (take (Z.to_nat (reg s REG_A2)) (available o s)).
    split; [exact I|]. split; [unfold tape_read; rewrite !bool_decide_eq_true_2 by auto; reflexivity|]. apply in_gen_sd. eauto.
Qed.
(** hash calls *)
Lemma at_lookup l k b : l !! k = Some b -> at_ l k = b.
Proof. unfold at_. rewrite nth_lookup. intros ->. reflexivity. Qed.
Lemma in_call c a o m e r : call_entry (c, a, o, m) (c, e) -> a + Z.of_nat (length m) < 2 ^ 32 ->
  In r (flat_map mem_of_sponge (sp_rows c e)) <-> exists k b, m !! k = Some b /\ r = mkMemRow 0 (a + Z.of_nat k) (c mod P) 0 1 0 b.
Proof.
  intros (_ & U1 & U3 & Um & B & sp & Ee & SC & NE) BT. cbn [snd] in Ee. subst e. pose proof SC as [SL _]. rewrite in_flat_map.
  assert (X : forall q, In q (sp_rows c (mkP2 a o (Z.of_nat (length m)) sp)) <-> exists k d, sp !! k = Some d /\ q = sp_row c a o (Z.of_nat (length m)) k d).
  { intros q. split.
    - intros I. apply In_lookup in I as [k E]. rewrite sp_rows_lookup in E. cbn [p2_addr p2_output_addr p2_len p2_sponge] in E. destruct (sp !! k) as [d|] eqn:D; [|discriminate E]. injection E as <-. eauto.
    - intros (k & d & D & ->). apply (lookup_In _ k). rewrite sp_rows_lookup. cbn [p2_addr p2_output_addr p2_len p2_sponge]. rewrite D. reflexivity. }
  assert (Y : forall k d, sp !! k = Some d -> mem_of_sponge (sp_row c a o (Z.of_nat (length m)) k d) = map (fun j => mkMemRow 0 (a + Z.of_nat (8 * k + j)) (c mod P) 0 1 0 (at_ m (8 * k + j))) (seq 0 8)).
  { intros k d D. unfold mem_of_sponge. replace (s_executed (sp_row c a o (Z.of_nat (length m)) k d)) with 1 by (unfold s_executed, sp_row; cbn; destruct k; reflexivity). change (1 mod P =? 0) with false. cbv iota.
    apply map_ext_in. intros j J. apply in_seq in J. cbn [sp_row s_in s_clk s_pre]. rewrite (pre_byte permute permute12 utf8_ok m sp k d j SC D) by lia.
    apply lookup_lt_Some in D. rewrite Z.mod_small by (unfold u32, P in *; lia). f_equal. lia. }
  split.
  - intros (q & I & J). apply X in I as (k & d & D & ->). rewrite (Y k d D) in J. apply in_map_iff in J as (j & <- & J). apply in_seq in J. pose proof (lookup_lt_Some _ _ _ D) as Lk.
    assert (Lm : (8 * k + j < length m)%nat) by lia. apply lookup_lt_is_Some in Lm as [b Eb]. exists (8 * k + j)%nat, b. split; [exact Eb|]. rewrite (at_lookup _ _ _ Eb). reflexivity.
  - intros (k & b & Eb & ->). pose proof (lookup_lt_Some _ _ _ Eb) as Lk. assert (Ls : (k / 8 < length sp)%nat) by (apply Nat.div_lt_upper_bound; lia). apply lookup_lt_is_Some in Ls as [d D].
    exists (sp_row c a o (Z.of_nat (length m)) (k / 8) d). split; [apply X; eauto|]. rewrite (Y _ _ D). apply in_map_iff. pose proof (Nat.div_mod_eq k 8) as DM. pose proof (Nat.mod_upper_bound k 8 ltac:(lia)) as MB. exists (k mod 8)%nat. replace (8 * (k / 8) + k mod 8)%nat with k by lia. rewrite (at_lookup _ _ _ Eb). split; [reflexivity|apply in_seq; lia].
Qed.
Lemma in_digest c a o m e r : call_entry (c, a, o, m) (c, e) -> o + 32 <= 2 ^ 32 ->
  In r (flat_map mem_of_ob (omap ob_of (sp_rows c e))) <-> exists d k b, is_digest permute m d /\ d !! k = Some b /\ r = mkMemRow 0 (o + Z.of_nat k) (c mod P) 1 0 0 b.
Proof.
  intros (_ & U1 & U3 & Um & B & sp & Ee & SC & NE) BT. cbn [snd] in Ee. subst e. pose proof SC as [SL SCC].
  destruct (last_only permute m sp SC NE) as (d & E & G1 & _).
  assert (L32 : length (hash_to_bytes (take 4 (output d))) = 32%nat).
  { rewrite (hash_to_bytes_length permute (fun _ => true)), take_length. rewrite last_lookup in E. destruct (sponge12 permute permute12 (fun _ => true) m sp SC _ _ E) as [_ [-> _]]. reflexivity. }
  set (n := (length sp - 1)%nat). assert (En : sp !! n = Some d) by (rewrite last_lookup in E; unfold n; replace (length sp - 1)%nat with (pred (length sp)) by lia; exact E).
  assert (X : forall q, In q (omap ob_of (sp_rows c (mkP2 a o (Z.of_nat (length m)) sp))) <-> q = mkObRow 1 (c mod P) o (take 4 (output d)) (hash_to_bytes (take 4 (output d)))).
  { intros q. rewrite in_omap. split.
    - intros (x & I & Ex). apply In_lookup in I as [k Ek]. rewrite sp_rows_lookup in Ek. cbn [p2_addr p2_output_addr p2_len p2_sponge] in Ek. destruct (sp !! k) as [d'|] eqn:D; [|discriminate Ek]. injection Ek as <-. unfold ob_of, sp_row in Ex. cbn [s_gen s_clk s_out s_post] in Ex.
      destruct (SCC _ _ D) as (_ & _ & GO). rewrite GO in Ex. destruct (Nat.eqb_spec (S k) (length sp)) as [Ek|Ek]; [|discriminate Ex]. assert (d' = d) as -> by (unfold n in En; replace (length sp - 1)%nat with k in En by lia; congruence). injection Ex as <-. reflexivity.
    - intros ->. exists (sp_row c a o (Z.of_nat (length m)) n d). split; [apply (lookup_In _ n); rewrite sp_rows_lookup; cbn [p2_addr p2_output_addr p2_len p2_sponge]; rewrite En; reflexivity|]. unfold ob_of, sp_row. cbn [s_gen s_clk s_out s_post]. rewrite G1. reflexivity. }
  assert (Y : forall d', is_digest permute m d' <-> d' = hash_to_bytes (take 4 (output d))).
  { intros d'. split; [intros (sp' & q & SC' & Lq & ->)|intros ->; exists sp, d; auto]. rewrite (sponge_unique _ _ _ _ SC SC') in *. rewrite Lq in E. injection E as ->. reflexivity. }
  rewrite in_flat_map. split.
  - intros (q & I & J). apply X in I. subst q. unfold mem_of_ob in J. cbn [o_exe o_addr o_clk o_bytes] in J. change (1 mod P =? 0) with false in J. cbv iota in J. apply in_map_iff in J as (k & <- & J). apply in_seq in J.
    assert (Lk : (k < length (hash_to_bytes (take 4 (output d))))%nat) by lia. apply lookup_lt_is_Some in Lk as [b Eb]. exists (hash_to_bytes (take 4 (output d))), k, b. split; [apply Y; reflexivity|]. split; [exact Eb|]. rewrite (at_lookup _ _ _ Eb), Z.mod_small by (unfold u32, P in *; lia). reflexivity.
  - intros (d' & k & b & DG & Eb & ->). apply Y in DG. subst d'. eexists. split; [apply X; reflexivity|]. unfold mem_of_ob. cbn [o_exe o_addr o_clk o_bytes]. change (1 mod P =? 0) with false. cbv iota. apply in_map_iff. pose proof (lookup_lt_Some _ _ _ Eb) as Lk. exists k.
    split; [|apply in_seq; lia]. rewrite (at_lookup _ _ _ Eb), Z.mod_small by (unfold u32, P in *; lia). reflexivity.
Qed.
Lemma omap_flat_map {A B C} (h : B -> option C) (f : A -> list B) l : omap h (flat_map f l) = flat_map (fun x => omap h (f x)) l.
Proof. induction l as [|x l IH]; [reflexivity|]. cbn [flat_map]. rewrite omap_app, IH. reflexivity. Qed.
Lemma sponge_shape p rows t : program_ok p -> Forall (step_ok p) rows -> generate_sponge_trace rows = Ok t ->
  t = pad_with sp_default (sp_blocks (omap p2_entry_of rows)) /\ (forall c a o m, In (c, a, o, m) (hash_calls rows) -> a + Z.of_nat (length m) < 2 ^ 32).
Proof.
  intros PO F GT. pose proof (entries_calls permute permute12 utf8_ok p rows PO F) as EC. unfold generate_sponge_trace in GT. destruct (unroll_all_spec permute permute12 utf8_ok _ _ EC) as [[T E]|[T E]]; rewrite E in GT; cbn [rbind] in GT; [discriminate GT|].
  injection GT as <-. split; [reflexivity|]. intros c a o m I. assert (B : a + Z.of_nat (length m) <= 2 ^ 32).
  { clear - EC I. induction EC as [|x y xs ys H EC IH]; [destruct I|]. destruct I as [->|I]; [|apply IH, I]. destruct H as (_ & _ & _ & _ & B & _). exact B. }
  assert (N : a + Z.of_nat (length m) <> 2 ^ 32) by (intros Q; apply T, (top_calls permute _ _ EC); exists c, a, o, m; auto). lia.
Qed.
Definition digests_fit (rows : list exrow) : Prop := forall c a o m, In (c, a, o, m) (hash_calls rows) -> o + 32 <= 2 ^ 32.
Lemma sp_default_mem n q : In q (repeat sp_default n) -> mem_of_sponge q = [] /\ ob_of q = None.
Proof. intros I. apply repeat_spec in I. subst q. split; reflexivity. Qed.
Lemma in_hash p rows t r : program_ok p -> Forall (step_ok p) rows -> generate_sponge_trace rows = Ok t -> digests_fit rows ->
  (In r (flat_map mem_of_sponge t) <-> exists s i a, In (s, i, a) rows /\ exists k b, iop i = ECALL /\ reg s REG_A0 = 3 /\ message s !! k = Some b /\ r = mkMemRow 0 (reg s REG_A1 + Z.of_nat k) (clk s mod P) 0 1 0 b) /\
  (In r (flat_map mem_of_ob (generate_ob_trace t)) <-> exists s i a, In (s, i, a) rows /\ exists d k b, iop i = ECALL /\ reg s REG_A0 = 3 /\ is_digest permute (message s) d /\ d !! k = Some b /\ r = stored s (reg s REG_A3 + Z.of_nat k, b)).
Proof.
  intros PO F GT DF. destruct (sponge_shape p rows t PO F GT) as [-> MB].
  assert (ENT : forall x, In x rows -> forall c e, p2_entry_of x = Some (c, e) -> exists s i a, x = (s, i, a) /\ iop i = ECALL /\ reg s REG_A0 = 3 /\ c = clk s /\ call_entry (clk s, reg s REG_A1, reg s REG_A3, message s) (clk s, e) /\ reg s REG_A1 + Z.of_nat (length (message s)) < 2 ^ 32 /\ reg s REG_A3 + 32 <= 2 ^ 32).
  { intros [[s i] a] I c e E. rewrite List.Forall_forall in F. pose proof (entry_hash permute permute12 utf8_ok p s i a PO (F _ I)) as EH. rewrite E in EH. destruct (hash_call (s, i, a)) as [x|] eqn:HC; [|destruct EH]. pose proof HC as HC'. unfold hash_call in HC.
    destruct (bool_decide (iop i = ECALL) && (reg s REG_A0 =? 3)) eqn:Q; [|discriminate HC]. injection HC as <-. apply andb_true_iff in Q as [Q1 Q2]. apply bool_decide_eq_true in Q1. apply Z.eqb_eq in Q2. assert (c = clk s) as -> by (destruct EH as (Ec & _); exact Ec).
    assert (IH : In (clk s, reg s REG_A1, reg s REG_A3, message s) (hash_calls rows)) by (unfold hash_calls; apply in_omap; exists (s, i, a); auto).
    exists s, i, a. split; [reflexivity|]. split; [exact Q1|]. split; [exact Q2|]. split; [reflexivity|]. split; [exact EH|]. split; [exact (MB _ _ _ _ IH)|exact (DF _ _ _ _ IH)]. }
  assert (HASH : forall s i a, In (s, i, a) rows -> iop i = ECALL -> reg s REG_A0 = 3 -> exists e, p2_entry_of (s, i, a) = Some (clk s, e)).
  { intros s i a I Q A0. rewrite List.Forall_forall in F. pose proof (entry_hash permute permute12 utf8_ok p s i a PO (F _ I)) as EH. unfold hash_call in EH. rewrite bool_decide_eq_true_2, A0 in EH by exact Q. cbn [andb Z.eqb Pos.eqb] in EH. destruct (p2_entry_of (s, i, a)) as [[c e]|]; [|destruct EH]. destruct EH as (Ec & _). cbn [fst] in Ec. subst c. eauto. }
  split.
  - rewrite in_flat_map. split.
    + intros (q & I & J). unfold pad_with in I. apply in_app_iff in I as [I|I]; [|destruct (sp_default_mem _ _ I) as [Z0 _]; rewrite Z0 in J; destruct J]. unfold sp_blocks in I. apply in_flat_map in I as ([c e] & I & K). apply in_omap in I as (x & I & Ex).
      destruct (ENT x I c e Ex) as (s & i & a & -> & Q & A0 & -> & CE & B1 & B2). assert (J' : In r (flat_map mem_of_sponge (sp_rows (clk s) e))) by (apply in_flat_map; eauto). apply (in_call _ _ _ _ _ r CE B1) in J' as (k & b & Eb & ->). exists s, i, a. split; [exact I|]. exists k, b. auto.
    + intros (s & i & a & I & k & b & Q & A0 & Eb & ->). destruct (HASH s i a I Q A0) as [e Ex]. destruct (ENT _ I _ _ Ex) as (s' & i' & a' & E' & _ & _ & _ & CE & B1 & B2). injection E' as <- <- <-.
      assert (J : In (mkMemRow 0 (reg s REG_A1 + Z.of_nat k) (clk s mod P) 0 1 0 b) (flat_map mem_of_sponge (sp_rows (clk s) e))) by (apply (in_call _ _ _ _ _ _ CE B1); eauto). apply in_flat_map in J as (q & J1 & J2). exists q. split; [|exact J2].
      unfold pad_with. apply in_or_app. left. unfold sp_blocks. apply in_flat_map. exists (clk s, e). split; [apply in_omap; eauto|exact J1].
  - unfold generate_ob_trace, pad_with. rewrite flat_map_app, in_app_iff. rewrite omap_app. unfold sp_blocks. rewrite omap_flat_map. rewrite flat_map_app, in_app_iff. split.
    + intros [[I|I]|I].
      * apply in_flat_map in I as (q & I & J). apply in_flat_map in I as ([c e] & I & K). apply in_omap in I as (x & I & Ex). destruct (ENT x I c e Ex) as (s & i & a & -> & Q & A0 & -> & CE & B1 & B2).
        assert (J' : In r (flat_map mem_of_ob (omap ob_of (sp_rows (clk s) e)))) by (apply in_flat_map; eauto). apply (in_digest _ _ _ _ _ r CE B2) in J' as (d & k & b & DG & Eb & ->). exists s, i, a. split; [exact I|]. exists d, k, b. auto.
      * apply in_flat_map in I as (q & I & _). apply in_omap in I as (x & I & Ex). destruct (sp_default_mem _ _ I) as [_ Z0]. congruence.
      * apply in_flat_map in I as (q & I & J). apply repeat_spec in I. subst q. destruct J.
    + intros (s & i & a & I & d & k & b & Q & A0 & DG & Eb & ->). left. left. destruct (HASH s i a I Q A0) as [e Ex]. destruct (ENT _ I _ _ Ex) as (s' & i' & a' & E' & _ & _ & _ & CE & B1 & B2). injection E' as <- <- <-.
      assert (J : In (stored s (reg s REG_A3 + Z.of_nat k, b)) (flat_map mem_of_ob (omap ob_of (sp_rows (clk s) e)))) by (apply (in_digest _ _ _ _ _ _ CE B2); exists d, k, b; auto). apply in_flat_map in J as (q & J1 & J2). apply in_flat_map. exists q. split; [|exact J2].
      apply in_flat_map. exists (clk s, e). split; [apply in_omap; eauto|exact J1].
Qed.
(** all of them *)
Lemma in_accs p rows t r : program_ok p -> Forall (step_ok p) rows -> generate_sponge_trace rows = Ok t -> digests_fit rows ->
  In r (accs_of rows t) <-> exists s i a, In (s, i, a) rows /\ contributes permute s i a r.
Proof.
  intros PO F GT DF. unfold accs_of. rewrite !in_app_iff. destruct (in_hash p rows t r PO F GT DF) as [H1 H2]. rewrite H1, H2, in_words, (in_tapes p rows r PO F). split.
  - intros [[([[s i] a] & I & J)|[(s & i & a & I & o & k & b & H)|(s & i & a & I & k & b & H)]]|(s & i & a & I & d & k & b & H)]; exists s, i, a; (split; [exact I|]).
    + apply ct_word, J.
    + destruct H as (Q1 & Q2 & Q3 & Q4). eapply ct_tape; eauto.
    + destruct H as (Q1 & Q2 & Q3 & Q4). eapply ct_message; eauto.
    + destruct H as (Q1 & Q2 & Q3 & Q4 & Q5). eapply ct_digest; eauto.
  - intros (s & i & a & I & C). destruct C as [J|o k b Q1 Q2 Q3 Q4|k b Q1 Q2 Q3 Q4|d k b Q1 Q2 Q3 Q4 Q5].
    + left. left. exists (s, i, a). auto.
    + left. right. left. exists s, i, a. split; [exact I|]. exists o, k, b. auto.
    + left. right. right. exists s, i, a. split; [exact I|]. exists k, b. auto.
    + right. exists s, i, a. split; [exact I|]. exists d, k, b. auto.
Qed.
(** loads of a step come before its stores *)
Lemma accs_order p rows t : program_ok p -> Forall (step_ok p) rows -> generate_sponge_trace rows = Ok t -> digests_fit rows ->
  (forall s i a s' i' a', In (s, i, a) rows -> In (s', i', a') rows -> clk s mod P = clk s' mod P -> s = s' /\ i = i' /\ a = a') ->
  ForallOrdPairs (fun x y => m_addr x = m_addr y -> m_clk x = m_clk y -> m_store x = 1 -> m_load y = 0) (accs_of rows t).
Proof.
  intros PO F GT DF INJ. unfold accs_of.
  assert (OB : forall y, In y (flat_map mem_of_ob (generate_ob_trace t)) -> m_load y = 0).
  { intros y I. apply (proj2 (in_hash p rows t y PO F GT DF)) in I as (s & i & a & I & d & k & b & Q1 & Q2 & Q3 & Q4 & ->). reflexivity. }
  apply pairs_app; [|apply pairs_all; intros x y _ Iy _ _ _; apply OB, Iy|intros x y _ Iy _ _ _; apply OB, Iy].
  assert (PRE : forall x, In x (word_accs rows ++ tape_accs rows ++ flat_map mem_of_sponge t) -> exists s i a, In (s, i, a) rows /\ contributes permute s i a x /\ m_clk x = clk s mod P /\ (m_store x = 1 -> kind_of s i = KStore) /\ (m_load x <> 0 -> kind_of s i <> KStore)).
  { intros x I. assert (IA : In x (accs_of rows t)) by (unfold accs_of; apply in_or_app; left; exact I). rewrite !in_app_iff in I. rewrite in_words, (in_tapes p rows x PO F), (proj1 (in_hash p rows t x PO F GT DF)) in I.
    assert (ST : forall s i a, In (s, i, a) rows -> contributes permute s i a x -> fits s i -> exists s', execute_instruction permute utf8_ok s p = Ok (a, i, s') /\ state_ok s /\ m_clk x = clk s mod P /\ (m_load x <> 0 -> kind_of s i <> KStore) /\ (m_store x = 1 -> kind_of s i = KStore \/ kind_of s i = KHash)).
    { intros s i a J C FT. rewrite List.Forall_forall in F. destruct (F _ J) as [OK (s' & X)]. exists s'. split; [exact X|]. split; [exact OK|]. destruct (contributes_ok permute permute12 utf8_ok s p a i s' x OK PO X FT C) as (_ & C1 & _ & _ & _ & H).
      split; [exact C1|]. destruct H as [(L1 & S0 & _ & [K|K])|(S1 & L0 & _ & _ & K)]; split; intros; try congruence; auto. }
    assert (FIT : forall s i a, In (s, i, a) rows -> fits s i).
    { intros s i a J Q A0. apply (DF (clk s) (reg s REG_A1) (reg s REG_A3) (message s)). unfold hash_calls. apply in_omap. exists (s, i, a). split; [exact J|]. unfold hash_call. rewrite bool_decide_eq_true_2, A0 by exact Q. reflexivity. }
    destruct I as [([[s i] a] & J & K)|[(s & i & a & J & o & k & b & Q1 & Q2 & Q3 & Q4)|(s & i & a & J & k & b & Q1 & Q2 & Q3 & Q4)]]; exists s, i, a; (split; [exact J|]).
    - assert (C : contributes permute s i a x) by (apply ct_word, K). destruct (ST s i a J C (FIT _ _ _ J)) as (s' & X & OK & C1 & KL & KS). split; [exact C|]. split; [exact C1|]. split; [|exact KL]. intros S1. destruct (KS S1) as [Q|Q]; [exact Q|]. exfalso.
      unfold kind_of in Q. destruct (load_size (iop i)) eqn:L; [discriminate Q|]. destruct (store_size (iop i)) eqn:S; [discriminate Q|]. rewrite (amem_none permute utf8_ok s p a i s' OK PO X L S) in K. destruct K.
    - assert (C : contributes permute s i a x) by (eapply ct_tape; eauto). destruct (ST s i a J C (FIT _ _ _ J)) as (s' & X & OK & C1 & KL & KS). split; [exact C|]. split; [exact C1|]. split; [|exact KL]. intros S1. unfold kind_of. rewrite Q1. cbn. rewrite Q2. reflexivity.
    - assert (C : contributes permute s i a x) by (eapply ct_message; eauto). destruct (ST s i a J C (FIT _ _ _ J)) as (s' & X & OK & C1 & KL & KS). split; [exact C|]. split; [exact C1|]. split; [|exact KL]. intros S1. subst x. discriminate S1. }
  apply pairs_all. intros x y Ix Iy _ CE S1. destruct (PRE x Ix) as (s & i & a & J & _ & C1 & KS & _). destruct (PRE y Iy) as (s' & i' & a' & J' & _ & C2 & _ & KL). rewrite C1, C2 in CE. destruct (INJ _ _ _ _ _ _ J J' CE) as (<- & <- & <-).
  destruct (Z.eq_dec (m_load y) 0) as [Q|Q]; [exact Q|]. exfalso. apply (KL Q), KS, S1.
Qed.
End WithHash.
