(** Proofs about the skeleton, register, memory and ROM tables. *)
From Verif Require Import StateSpec TableProofs CpuProofs CpuTrace.
Open Scope Z_scope.
Ltac Zify.zify_post_hook ::= Z.div_mod_to_equations.

(** ** Windows *)
Lemma windows_lookup {R} (t : list R) k r r' : t !! k = Some r -> t !! (S k mod length t)%nat = Some r' -> windows t !! k = Some (r, r').
Proof.
  intros E E'. pose proof (lookup_lt_Some _ _ _ E) as L. unfold windows.
  assert (T : (tail t ++ take 1 t) !! k = Some r').
  { destruct t as [|x t]; [discriminate|]. cbn [tail take length] in *. destruct (decide (S k = S (length t))) as [Q|Q].
    - rewrite Q, Nat.mod_same in E' by lia. cbn in E'. rewrite lookup_app_r by lia. replace (k - length t)%nat with 0%nat by lia. exact E'.
    - rewrite Nat.mod_small in E' by lia. cbn in E'. rewrite lookup_app_l by lia. exact E'. }
  clear E'. revert k E T L. generalize (tail t ++ take 1 t) as u. induction t as [|x t IH]; intros u k E T L; [discriminate|].
  destruct u as [|y u]; [discriminate|]. destruct k as [|k]; cbn in *; [congruence|]. apply IH; auto. lia.
Qed.
Lemma windows_In {R} (t : list R) k r r' : t !! k = Some r -> t !! (S k mod length t)%nat = Some r' -> In (r, r') (windows t).
Proof. intros E E'. eapply lookup_In, windows_lookup; eauto. Qed.
Lemma succ_mod {R} (t : list R) k r : t !! k = Some r -> exists r', t !! (S k mod length t)%nat = Some r'.
Proof.
  intros E. apply lookup_lt_is_Some_2. apply lookup_lt_Some in E. apply Nat.mod_upper_bound. lia.
Qed.
Lemma succ_lt {R} (t : list R) k r' : t !! S k = Some r' -> (S k mod length t = S k)%nat.
Proof. intros E. apply lookup_lt_Some in E. apply Nat.mod_small. lia. Qed.

(** ** Skeleton *)
Section Skel.
Context (entry : Z) (t : list skel) (A : skel_accepted entry t).
Lemma sk_canon k r : t !! k = Some r -> canon (sk_clk r) /\ canon (sk_pc r) /\ canon (sk_running r).
Proof. intros E. pose proof (sa_canon _ _ A) as C. rewrite Forall_forall in C. apply C. eapply lookup_In; eauto. Qed.
Lemma sk_step k r r' : t !! k = Some r -> t !! S k = Some r' -> bit (sk_running r) ->
  (sk_running r' = 0 \/ sk_running r' = sk_running r) /\ (sk_clk r < P - 1 -> sk_clk r' = sk_clk r + sk_running r).
Proof.
  intros E E' B. pose proof (ts_transition _ _ (sa_sat _ _ A) k r r' E E') as Z0. cbn [skel_air a_transition] in Z0.
  destruct (sk_canon _ _ E) as (C1 & _ & C2). destruct (sk_canon _ _ E') as (C1' & _ & C2').
  unfold all_zero in Z0. inv_forall Z0. split.
  - apply fzero_mul in Z0c1 as [K|K]; apply fzero_small in K; unfold canon, P in *; lia.
  - intros L. apply fzero_small in Z0c0; unfold canon, P, bit in *; lia.
Qed.
Lemma sk_first : exists r, t !! 0%nat = Some r /\ sk_pc r mod P = entry mod P /\ sk_clk r = 2 /\ sk_running r = 1.
Proof.
  assert (L : (0 < length t)%nat) by (pose proof (ts_nonempty _ _ (sa_sat _ _ A)); destruct t; [congruence|cbn; lia]).
  destruct (lookup_lt_is_Some_2 t 0 L) as [r E]. exists r. split; [exact E|].
  pose proof (ts_first _ _ (sa_sat _ _ A) r E) as Z0. cbn [skel_air a_first] in Z0. unfold all_zero in Z0. inv_forall Z0.
  destruct (sk_canon _ _ E) as (C1 & _ & C2). split; [|split].
  - apply fzero_iff in Z0c as [k K]. replace (sk_pc r) with (entry + k * P) by lia. apply Z_mod_plus_full.
  - apply fzero_small in Z0c0; unfold canon, P in *; lia.
  - apply fzero_small in Z0c1; unfold canon, P in *; lia.
Qed.
Lemma sk_prefix k r : t !! k = Some r -> exists n, (n <= k)%nat /\ sk_clk r = 2 + Z.of_nat n /\ bit (sk_running r) /\
  (sk_running r = 1 -> n = k) /\ (forall j q, (j < n)%nat -> t !! j = Some q -> sk_running q = 1 /\ sk_clk q = 2 + Z.of_nat j) /\
  (forall j q, (n <= j < k)%nat -> t !! j = Some q -> sk_running q = 0 /\ sk_clk q = 2 + Z.of_nat n).
Proof.
  revert r. induction k as [|k IH]; intros r E.
  - destruct sk_first as (q & E0 & _ & C & R). rewrite E in E0. injection E0 as <-. exists 0%nat. unfold bit.
    split; [lia|]. split; [lia|]. split; [auto|]. split; [auto|]. split; intros; lia.
  - assert (E0 : exists q, t !! k = Some q) by (apply lookup_lt_is_Some_2; apply lookup_lt_Some in E; lia). destruct E0 as [q E0].
    destruct (IH q E0) as (n & Ln & C & B & N & Pr & Po). destruct (sk_step k q r E0 E B) as [SR SC].
    assert (LT : sk_clk q < P - 1). { rewrite C. apply lookup_lt_Some in E. pose proof (sa_len _ _ A) as M. unfold max_rows, P in *. lia. }
    specialize (SC LT). destruct B as [B|B].
    + exists n. split; [lia|]. split; [lia|]. split; [unfold bit; lia|]. split; [lia|]. split; [exact Pr|].
      intros j p L J. destruct (decide (j = k)) as [->|]; [rewrite E0 in J; injection J as <-; auto|apply (Po j p); auto; lia].
    + specialize (N B). subst n. exists (S k). split; [lia|]. split; [lia|]. split; [unfold bit; lia|]. split; [auto|]. split.
      * intros j p L J. destruct (decide (j = k)) as [->|]; [rewrite E0 in J; injection J as <-; auto|apply (Pr j p); auto; lia].
      * intros; lia.
Qed.
(** running rows count the clock, then the table stays halted at the next clock *)
Lemma skel_sound : exists n, (0 < n < length t)%nat /\
  (forall k r, t !! k = Some r -> (k < n)%nat -> sk_running r = 1 /\ sk_clk r = 2 + Z.of_nat k) /\
  (forall k r, t !! k = Some r -> (n <= k)%nat -> sk_running r = 0 /\ sk_clk r = 2 + Z.of_nat n).
Proof.
  assert (L : (0 < length t)%nat) by (pose proof (ts_nonempty _ _ (sa_sat _ _ A)); destruct t; [congruence|cbn; lia]).
  destruct (lookup_lt_is_Some_2 t (length t - 1)) as [r E]; [lia|]. destruct (sk_prefix _ r E) as (n & Ln & C & B & N & Pr & Po).
  assert (R : sk_running r = 0).
  { assert (LA : stdpp.list.last t = Some r). { rewrite last_lookup. replace (pred (length t)) with (length t - 1)%nat by lia. exact E. }
    pose proof (ts_last _ _ (sa_sat _ _ A) r LA) as Z0. cbn [skel_air a_last] in Z0. apply Forall_inv in Z0.
    destruct (sk_canon _ _ E) as (_ & _ & K). apply fzero_small in Z0; unfold canon, P in *; lia. }
  exists n. split; [|split].
  - split; [|lia]. destruct n; [|lia]. exfalso. destruct sk_first as (q & E0 & _ & _ & RQ).
    destruct (decide (0 = length t - 1)%nat) as [Q|Q]; [rewrite <- Q in E; rewrite E in E0; injection E0 as <-; lia|].
    destruct (Po 0%nat q) as [K _]; [lia|auto|]. lia.
  - intros k q Ek Lk. apply (Pr k q); auto.
  - intros k q Ek Lk. destruct (decide (k = length t - 1)%nat) as [->|]; [rewrite E in Ek; injection Ek as <-; auto|].
    apply (Po k q); auto. apply lookup_lt_Some in Ek. lia.
Qed.
End Skel.

(** ** Tables sorted by address and time *)
Section Sorted.
Context {R : Type} (t : list R) (adr tm val : R -> Z) (isI isL isS : R -> Prop).
Definition act (r : R) : Prop := isI r \/ isL r \/ isS r.
Hypothesis Hdec : forall r, isI r \/ ~ isI r.
Hypothesis HLI : forall k r, t !! k = Some r -> isL r -> ~ isI r.
Hypothesis HSI : forall k r, t !! k = Some r -> isS r -> ~ isI r.
Hypothesis HLS : forall k r, t !! k = Some r -> isL r -> ~ isS r.
Hypothesis Hfirst : forall r, t !! 0%nat = Some r -> act r -> isI r.
Hypothesis Hdown : forall k r r', t !! k = Some r -> t !! Datatypes.S k = Some r' -> act r' -> act r.
Hypothesis Hinit : forall k r r', t !! k = Some r -> t !! Datatypes.S k = Some r' -> isI r' -> adr r < adr r' \/ (adr r = adr r' /\ isI r).
Hypothesis Hsame : forall k r r', t !! k = Some r -> t !! Datatypes.S k = Some r' -> act r' -> ~ isI r' -> adr r' = adr r /\ tm r <= tm r'.
Hypothesis Hval : forall k r r', t !! k = Some r -> t !! Datatypes.S k = Some r' -> isL r' -> val r' = val r.

Lemma srt_down k r : t !! k = Some r -> act r -> forall j q, (j <= k)%nat -> t !! j = Some q -> act q.
Proof.
  revert r. induction k as [|k IH]; intros r E A j q L J.
  - replace j with 0%nat in J by lia. rewrite E in J. injection J as <-. exact A.
  - destruct (decide (j = Datatypes.S k)) as [->|]; [rewrite E in J; injection J as <-; exact A|].
    destruct (lookup_lt_is_Some_2 t k) as [p Ep]; [apply lookup_lt_Some in E; lia|].
    apply (IH p Ep (Hdown k p r Ep E A) j q); auto. lia.
Qed.
Lemma srt_order i k p r : t !! i = Some p -> t !! k = Some r -> (i <= k)%nat -> act r ->
  adr p <= adr r /\ (adr p = adr r -> ~ isI p -> tm p <= tm r /\ forall j q, (i <= j <= k)%nat -> t !! j = Some q -> ~ isI q).
Proof.
  intros Ei. revert r. induction k as [|k IH]; intros r Ek L A.
  - replace i with 0%nat in Ei by lia. rewrite Ei in Ek. injection Ek as <-. split; [lia|]. intros _ NI. split; [lia|]. intros j q Lj Ej. assert (j = 0%nat) as -> by lia. congruence.
  - destruct (decide (i = Datatypes.S k)) as [->|].
    + rewrite Ei in Ek. injection Ek as <-. split; [lia|]. intros _ NI. split; [lia|]. intros j q Lj Ej. assert (j = Datatypes.S k) as -> by lia. congruence.
    + destruct (lookup_lt_is_Some_2 t k) as [q Eq]; [apply lookup_lt_Some in Ek; lia|].
      pose proof (Hdown k q r Eq Ek A) as Aq. destruct (IH q Eq) as [Q1 Q2]; [lia|exact Aq|].
      destruct (Hdec r) as [I|I].
      * destruct (Hinit k q r Eq Ek I) as [H|[H Iq]]; [split; [lia|]; intros; lia|]. split; [lia|]. intros Ea NI. exfalso. destruct Q2 as [_ Q2]; [lia|exact NI|]. apply (Q2 k q); auto. lia.
      * destruct (Hsame k q r Eq Ek A I) as [Sa St]. split; [lia|]. intros Ea NI. destruct Q2 as [Q2 Q3]; [lia|exact NI|].
        split; [lia|]. intros j x Lj Ex. destruct (decide (j = Datatypes.S k)) as [->|]; [rewrite Ek in Ex; injection Ex as <-; exact I|].
        apply (Q3 j x); auto. lia.
Qed.
Lemma srt_source k r : t !! k = Some r -> isL r -> exists j w, (j < k)%nat /\ t !! j = Some w /\ (isI w \/ isS w) /\
  adr w = adr r /\ val w = val r /\ forall i q, (j < i <= k)%nat -> t !! i = Some q -> isL q.
Proof.
  revert r. induction k as [|k IH]; intros r E L.
  - exfalso. apply (HLI 0%nat r E L), Hfirst; [exact E|right; left; exact L].
  - destruct (lookup_lt_is_Some_2 t k) as [q Eq]; [apply lookup_lt_Some in E; lia|].
    assert (A : act r) by (right; left; exact L). pose proof (Hdown k q r Eq E A) as Aq.
    destruct (Hsame k q r Eq E A (HLI _ r E L)) as [Sa _]. pose proof (Hval k q r Eq E L) as Sv.
    destruct Aq as [I|[I|I]].
    1,3: exists k, q; split; [lia|]; split; [exact Eq|]; split; [auto|]; split; [auto|]; split; [auto|];
      intros i x Li Ex; replace i with (Datatypes.S k) in Ex by lia; rewrite E in Ex; injection Ex as <-; exact L.
    destruct (IH q Eq I) as (j & w & Lj & Ew & K & Ea & Ev & Bt). exists j, w. split; [lia|]. split; [exact Ew|]. split; [exact K|].
    split; [lia|]. split; [lia|]. intros i x Li Ex. destruct (decide (i = Datatypes.S k)) as [->|]; [rewrite E in Ex; injection Ex as <-; exact L|].
    apply (Bt i x); auto. lia.
Qed.
(** every active address has an initialisation row, and only one *)
Lemma srt_init_ex k r : t !! k = Some r -> act r -> exists i p, (i <= k)%nat /\ t !! i = Some p /\ isI p /\ adr p = adr r.
Proof.
  revert r. induction k as [|k IH]; intros r E A.
  - exists 0%nat, r. auto.
  - destruct (lookup_lt_is_Some_2 t k) as [q Eq]; [apply lookup_lt_Some in E; lia|]. pose proof (Hdown k q r Eq E A) as Aq.
    destruct (Hdec r) as [I|I]; [exists (Datatypes.S k), r; auto|].
    destruct (IH q Eq Aq) as (i & p & Li & Ep & Ip & Ea). destruct (Hsame k q r Eq E A I) as [Sa _].
    exists i, p. split; [lia|]. split; [exact Ep|]. split; [exact Ip|]. lia.
Qed.
Lemma srt_init_unique i j p q : (forall k r r', t !! k = Some r -> t !! Datatypes.S k = Some r' -> isI r' -> adr r < adr r') ->
  t !! i = Some p -> t !! j = Some q -> isI p -> isI q -> adr p = adr q -> i = j.
Proof.
  intros Strict. assert (H : forall i j p q, (i < j)%nat -> t !! i = Some p -> t !! j = Some q -> isI q -> adr p = adr q -> False).
  { intros i0 j0 p0 q0 L Ei Ej Iq Ea. destruct j0 as [|j0]; [lia|]. destruct (lookup_lt_is_Some_2 t j0) as [x Ex]; [apply lookup_lt_Some in Ej; lia|].
    pose proof (Strict j0 x q0 Ex Ej Iq). destruct (srt_order i0 j0 p0 x Ei Ex) as [Q _]; [lia|apply (Hdown j0 x q0 Ex Ej); left; exact Iq|]. lia. }
  intros Ei Ej Ip Iq Ea. destruct (Nat.lt_trichotomy i j) as [L|[L|L]]; [exfalso|exact L|exfalso]; eapply H; eauto.
Qed.
Theorem srt_reads : (forall i w k r, t !! i = Some w -> t !! k = Some r -> isS w -> isL r -> tm w <> tm r) ->
  forall r, In r t -> isL r -> reads_last_write t isI isS adr tm val r.
Proof.
  intros Htie r Ir L. apply In_lookup in Ir as [k E]. destruct (srt_source k r E L) as (j & w & Lj & Ew & K & Ea & Ev & Bt).
  assert (A : act r) by (right; left; exact L).
  assert (Later : forall m x, t !! m = Some x -> isS x -> adr x = adr r -> tm x < tm r -> (m <= j)%nat).
  { intros m x Ex Sx Ax Tx. destruct (le_lt_dec m j) as [Q|Q]; [exact Q|exfalso]. destruct (le_lt_dec m k) as [Q'|Q'].
    - apply (HLS m x Ex); [apply (Bt m x); auto; lia|exact Sx].
    - destruct (srt_order k m r x E Ex) as [_ H]; [lia|right; right; exact Sx|]. destruct (H (eq_sym Ax) (HLI k r E L)). lia. }
  destruct K as [I|I].
  - right. split.
    + intros x Ix Sx Ax. apply In_lookup in Ix as [m Ex]. destruct (Z.le_gt_cases (tm r) (tm x)) as [Q|Q]; [exact Q|exfalso].
      pose proof (Later m x Ex Sx Ax ltac:(lia)) as Lm.
      destruct (srt_order m j x w Ex Ew Lm) as [_ H]; [left; exact I|]. destruct H as [_ N]; [lia|apply (HSI m x Ex); exact Sx|].
      exact (N j w ltac:(lia) Ew I).
    + exists w. split; [eapply lookup_In; eauto|auto].
  - left. exists w. split; [eapply lookup_In; eauto|]. split; [exact I|]. split; [exact Ea|].
    destruct (srt_order j k w r Ew E) as [_ H]; [lia|exact A|]. destruct (H Ea (HSI j w Ew I)) as [T _]. pose proof (Htie j w k r Ew E I L).
    split; [lia|]. split; [exact Ev|]. intros x Ix Sx Ax Tx. apply In_lookup in Ix as [m Ex].
    pose proof (Later m x Ex Sx Ax ltac:(lia)) as Lm. destruct (srt_order m j x w Ex Ew Lm) as [_ H']; [right; right; exact I|].
    destruct H'; [lia|apply (HSI m x Ex); exact Sx|]. lia.
Qed.
End Sorted.

(** ** Registers *)
Section Reg.
Context (t : list regrow) (A : reg_accepted t).
Lemma g_canon k r : t !! k = Some r -> reg_canon r.
Proof. intros E. pose proof (ra_canon _ A) as C. rewrite Forall_forall in C. apply C. eapply lookup_In; eauto. Qed.
Lemma g_bits k r : t !! k = Some r -> bit (g_init r) /\ bit (g_read r) /\ bit (g_write r) /\ bit (g_used r).
Proof.
  intros E. destruct (succ_mod t k r E) as [r' E']. pose proof (ts_always _ _ (ra_sat _ A) k r r' E E') as Z0.
  cbn [reg_air a_always] in Z0. unfold all_zero in Z0. inv_forall Z0. destruct (g_canon _ _ E) as (_ & _ & _ & C1 & C2 & C3).
  apply binary_canon in Z0c; [|exact C1]. apply binary_canon in Z0c0; [|exact C2]. apply binary_canon in Z0c1; [|exact C3].
  repeat (split; [assumption|]). apply binary_canon in Z0c2; [exact Z0c2|]. unfold canon, P, g_used in *. lia.
Qed.
Lemma g_steps k r r' : t !! k = Some r -> t !! S k = Some r' ->
  (g_used r' = 1 -> g_used r = 1) /\ (g_read r' = 1 -> g_value r' = g_value r) /\
  (g_read r' + g_write r' = 1 -> g_addr r' = g_addr r) /\ (g_addr r < P - 1 -> g_addr r' = g_addr r \/ g_addr r' = g_addr r + 1).
Proof.
  intros E E'. pose proof (ts_transition _ _ (ra_sat _ A) k r r' E E') as Z0. cbn [reg_air a_transition] in Z0.
  unfold all_zero in Z0. inv_forall Z0. destruct (g_canon _ _ E) as (C1 & C2 & _). destruct (g_canon _ _ E') as (C1' & C2' & _).
  destruct (g_bits _ _ E) as (B1 & B2 & B3 & B4). destruct (g_bits _ _ E') as (B1' & B2' & B3' & B4').
  split; [|split; [|split]].
  - intros U. rewrite U in Z0c. apply fzero_mul in Z0c as [K|K]; apply fzero_small in K; unfold bit, P in *; lia.
  - intros U. rewrite U in Z0c0. apply fzero_mul in Z0c0 as [K|K]; apply fzero_small in K; unfold canon, bit, P in *; lia.
  - intros U. rewrite U in Z0c1. apply fzero_mul in Z0c1 as [K|K]; apply fzero_small in K; unfold canon, bit, P in *; lia.
  - intros L. apply fzero_mul in Z0c2 as [K|K]; apply fzero_small in K; unfold canon, bit, P in *; lia.
Qed.
Lemma g_addr_range k r : t !! k = Some r -> 1 <= g_addr r <= 1 + Z.of_nat k.
Proof.
  revert r. induction k as [|k IH]; intros r E.
  - pose proof (ts_first _ _ (ra_sat _ A) r E) as Z0. cbn in Z0. apply Forall_inv in Z0. destruct (g_canon _ _ E) as (C1 & _).
    apply fzero_small in Z0; unfold canon, P in *; lia.
  - destruct (lookup_lt_is_Some_2 t k) as [q Eq]; [apply lookup_lt_Some in E; lia|]. specialize (IH q Eq).
    destruct (g_steps k q r Eq E) as (_ & _ & _ & S4). pose proof (ra_len _ A) as M. pose proof (lookup_lt_Some _ _ _ E) as L.
    unfold max_rows in M. assert (g_addr q < P - 1) by (unfold P; lia). specialize (S4 ltac:(assumption)). lia.
Qed.
(** register addresses only grow, by at most one, from 1 to 31 *)
Lemma g_addr_mono i k p r : t !! i = Some p -> t !! k = Some r -> (i <= k)%nat -> g_addr p <= g_addr r.
Proof.
  intros Ei. revert r. induction k as [|k IH]; intros r E L.
  - replace i with 0%nat in Ei by lia. rewrite E in Ei. injection Ei as <-. lia.
  - destruct (decide (i = S k)) as [->|]; [rewrite E in Ei; injection Ei as <-; lia|].
    destruct (lookup_lt_is_Some_2 t k) as [q Eq]; [apply lookup_lt_Some in E; lia|]. specialize (IH q Eq ltac:(lia)).
    destruct (g_steps k q r Eq E) as (_ & _ & _ & S4). pose proof (g_addr_range k q Eq). pose proof (ra_len _ A) as M.
    pose proof (lookup_lt_Some _ _ _ E) as L'. unfold max_rows in M. assert (g_addr q < P - 1) by (unfold P; lia).
    specialize (S4 ltac:(assumption)). lia.
Qed.
Lemma g_addr_31 k r : t !! k = Some r -> 1 <= g_addr r <= 31.
Proof.
  intros E. split; [eapply g_addr_range; eauto|]. pose proof (lookup_lt_Some _ _ _ E) as L.
  destruct (lookup_lt_is_Some_2 t (length t - 1)) as [q Eq]; [lia|].
  pose proof (g_addr_mono k (length t - 1) r q E Eq ltac:(lia)).
  assert (LA : stdpp.list.last t = Some q). { rewrite last_lookup. replace (pred (length t)) with (length t - 1)%nat by lia. exact Eq. }
  pose proof (ts_last _ _ (ra_sat _ A) q LA) as Z0. cbn in Z0. apply Forall_inv in Z0. destruct (g_canon _ _ Eq) as (C1 & _).
  apply fzero_small in Z0; unfold canon, P in *; lia.
Qed.
Lemma g_time k r r' : t !! k = Some r -> t !! S k = Some r' -> g_used r = 1 -> g_read r' + g_write r' = 1 -> g_aug r <= g_aug r'.
Proof.
  intros E E' U RW. assert (I : In ([g_aug r' - g_aug r], g_rw r') (reg_rc_looking t)).
  { unfold reg_rc_looking. apply in_map_iff. exists (r, r'). split; [reflexivity|]. apply (windows_In t k); auto. rewrite (succ_lt t k r'); auto. }
  assert (NZ : ~ fzero (g_rw r')) by (unfold g_rw; rewrite RW; discriminate). pose proof (ra_rc _ A _ _ I NZ) as I'. clear I. rename I' into I.
  pose proof (ra_init _ A) as HI. pose proof (ra_clk _ A) as HC. rewrite Forall_forall in HI, HC.
  specialize (HI r (lookup_In _ _ _ E)). pose proof (HC r (lookup_In _ _ _ E)) as HCr. specialize (HC r' (lookup_In _ _ _ E')).
  destruct (g_bits _ _ E) as (B1 & B2 & B3 & B4). destruct (g_bits _ _ E') as (B1' & B2' & B3' & B4').
  destruct (g_canon _ _ E) as (_ & _ & C & _). destruct (g_canon _ _ E') as (_ & _ & C' & _). unfold g_rw in *. specialize (HC RW).
  assert (g_clk r < 2 ^ 40). { unfold g_used in U. destruct B1 as [B1|B1]; [apply HCr; lia|rewrite HI by lia; lia]. }
  unfold g_aug in *. unfold u32 in I.
  remember (g_clk r' + g_clk r' + g_write r' - (g_clk r + g_clk r + g_write r)) as d.
  assert (- 2 ^ 42 < d < 2 ^ 42) by (unfold canon, bit in *; lia).
  destruct (Z.le_gt_cases 0 d) as [Q|Q]; [lia|]. exfalso.
  assert (D : d mod P = d + P). { symmetry. apply Z.mod_unique with (q := -1); unfold P; lia. } rewrite D in I. unfold P in I. lia.
Qed.
Definition gI r := g_init r = 1. Definition gL r := g_read r = 1. Definition gS r := g_write r = 1.
Context (O : reg_init_first t).
Lemma g_act k r : t !! k = Some r -> act gI gL gS r <-> g_used r = 1.
Proof. intros E. destruct (g_bits _ _ E) as (B1 & B2 & B3 & B4). unfold act, gI, gL, gS, g_used, bit in *. lia. Qed.
Lemma g_block k r : t !! k = Some r -> g_used r = 1 -> exists i p, (i <= k)%nat /\ t !! i = Some p /\ g_init p = 1 /\ g_addr p = g_addr r.
Proof.
  revert r. induction k as [|k IH]; intros r E U.
  - exists 0%nat, r. split; [lia|]. split; [exact E|]. split; [apply (ro_first _ O); exact E|reflexivity].
  - destruct (g_bits _ _ E) as (B1 & B2 & B3 & B4). destruct (lookup_lt_is_Some_2 t k) as [q Eq]; [apply lookup_lt_Some in E; lia|].
    destruct (g_steps k q r Eq E) as (S1 & _ & S3 & _).
    destruct B1 as [B1|B1]; [|exists (S k), r; auto].
    destruct (IH q Eq (S1 U)) as (i & p & L & Ep & I & Ea). exists i, p. unfold g_used in U. rewrite S3 by lia. auto.
Qed.
Lemma reg_reads : forall r, In r t -> g_read r = 1 -> reads_last_write t gI gS g_addr g_aug g_value r.
Proof.
  apply (srt_reads t g_addr g_aug g_value gI gL gS).
  - intros q. unfold gI. destruct (decide (g_init q = 1)); auto.
  - intros k q E. destruct (g_bits _ _ E) as (B1 & B2 & B3 & B4). unfold gI, gL, g_used, bit in *. lia.
  - intros k q E. destruct (g_bits _ _ E) as (B1 & B2 & B3 & B4). unfold gI, gS, g_used, bit in *. lia.
  - intros k q E. destruct (g_bits _ _ E) as (B1 & B2 & B3 & B4). unfold gL, gS, g_used, bit in *. lia.
  - intros q Eq _. apply (ro_first _ O q Eq).
  - intros k q q' Eq Eq' K. apply (g_act _ _ Eq). apply (g_act _ _ Eq') in K. destruct (g_steps k q q' Eq Eq') as (S1 & _). auto.
  - intros k q q' Eq Eq' I. pose proof (g_addr_mono k (S k) q q' Eq Eq' ltac:(lia)) as Mo. destruct (Z.eq_dec (g_addr q) (g_addr q')) as [Q|]; [right|left; lia]. split; [exact Q|].
    destruct (g_steps k q q' Eq Eq') as (S1 & _). destruct (g_bits _ _ Eq) as (B1 & B2 & B3 & B4). assert (U : g_used q = 1) by (apply S1; apply (g_act _ _ Eq'); left; exact I).
    unfold gI in *. destruct B1 as [B1|B1]; [exfalso|exact B1]. pose proof (ro_before _ O k (S k) q q' Eq Eq' ltac:(unfold g_rw, g_used in *; lia) I Q). lia.
  - intros k q q' Eq Eq' K NI. destruct (g_steps k q q' Eq Eq') as (S1 & _ & S3 & _). apply (g_act _ _ Eq') in K.
    destruct (g_bits _ _ Eq') as (B1' & B2' & B3' & B4').
    assert (RW : g_read q' + g_write q' = 1) by (unfold gI, g_used, bit in *; lia).
    split; [apply S3; exact RW|]. apply (g_time k); auto.
  - intros k q q' Eq Eq' K. destruct (g_steps k q q' Eq Eq') as (_ & S2 & _). apply S2, K.
  - intros i w k q Ew Eq W K. destruct (g_bits _ _ Eq) as (B1 & B2 & B3 & B4). unfold gS, gL, g_aug, g_used, bit in *. lia.
Qed.
End Reg.

(** ** Memory *)
Section Mem.
Context (t : list memrow) (A : mem_accepted t).
Lemma m_canon k r : t !! k = Some r -> mem_canon r.
Proof. intros E. pose proof (ma_canon _ A) as C. rewrite Forall_forall in C. apply C. eapply lookup_In; eauto. Qed.
Lemma m_bits k r : t !! k = Some r ->
  bit (m_writable r) /\ bit (m_store r) /\ bit (m_load r) /\ bit (m_init r) /\ bit (m_executed r) /\ (m_store r = 1 -> m_writable r = 1).
Proof.
  intros E. destruct (succ_mod t k r E) as [r' E']. pose proof (ts_always _ _ (ma_sat _ A) k r r' E E') as Z0.
  cbn [mem_air a_always] in Z0. unfold all_zero in Z0. inv_forall Z0. destruct (m_canon _ _ E) as (C1 & _ & _ & C2 & C3 & C4 & _).
  apply binary_canon in Z0c; [|exact C1]. apply binary_canon in Z0c0; [|exact C2]. apply binary_canon in Z0c1; [|exact C3]. apply binary_canon in Z0c2; [|exact C4].
  repeat (split; [assumption|]). split.
  - apply binary_canon in Z0c3; [exact Z0c3|]. unfold canon, P, m_executed in *. lia.
  - intros U. rewrite U in Z0c6. apply fzero_small in Z0c6; unfold P; lia.
Qed.
(** the constraints between a row and its (cyclic) successor *)
Lemma m_next k r r' : t !! k = Some r -> t !! (S k mod length t)%nat = Some r' ->
  (m_init r' = 0 -> m_addr r' = m_addr r /\ m_writable r' = m_writable r) /\ (m_load r' = 1 -> m_value r' = m_value r) /\
  (m_executed r = 1 -> u32 ((m_addr r' - m_addr r - m_init r') mod P)) /\ (m_init r' = 0 -> u32 ((m_aug r' - m_aug r) mod P)).
Proof.
  intros E E'. pose proof (ts_always _ _ (ma_sat _ A) k r r' E E') as Z0. pose proof (windows_In t k r r' E E') as W.
  cbn [mem_air a_always] in Z0. unfold all_zero in Z0. inv_forall Z0. destruct (m_canon _ _ E) as (C1 & C2 & C3 & C4 & C5 & C6 & C7).
  destruct (m_canon _ _ E') as (C1' & C2' & C3' & C4' & C5' & C6' & C7'). split; [|split; [|split]].
  - intros I. rewrite I in Z0c4, Z0c5. split.
    + apply fzero_mul in Z0c4 as [K|K]; apply fzero_small in K; unfold canon, P in *; lia.
    + apply fzero_mul in Z0c5 as [K|K]; apply fzero_small in K; unfold canon, P in *; lia.
  - intros I. rewrite I in Z0c7. apply fzero_mul in Z0c7 as [K|K]; apply fzero_small in K; unfold canon, P in *; lia.
  - intros I. apply (ma_rc _ A _ (m_executed r)); [|rewrite I; discriminate]. unfold mem_rc_looking. apply in_or_app. left.
    apply in_map_iff. exists (r, r'). auto.
  - intros I. apply (ma_rc _ A _ (1 - m_init r')); [|rewrite I; discriminate]. unfold mem_rc_looking. apply in_or_app. right.
    apply in_map_iff. exists (r, r'). auto.
Qed.
Lemma m_ends : exists f l, t !! 0%nat = Some f /\ t !! (length t - 1)%nat = Some l /\ m_addr f = 0 /\ m_addr l = 2 ^ 32 - 1 /\
  m_init f = 1 /\ m_executed l = 0 /\ m_executed f = 1.
Proof.
  assert (L : (0 < length t)%nat) by (pose proof (ts_nonempty _ _ (ma_sat _ A)); destruct t; [congruence|cbn; lia]).
  destruct (lookup_lt_is_Some_2 t 0 L) as [f Ef]. destruct (lookup_lt_is_Some_2 t (length t - 1)) as [l El]; [lia|].
  assert (LA : stdpp.list.last t = Some l). { rewrite last_lookup. replace (pred (length t)) with (length t - 1)%nat by lia. exact El. }
  pose proof (ts_first _ _ (ma_sat _ A) f Ef) as Z0. cbn in Z0. apply Forall_inv in Z0.
  pose proof (ts_last _ _ (ma_sat _ A) l LA) as Z1. cbn in Z1. apply Forall_inv in Z1.
  destruct (m_canon _ _ Ef) as (_ & Cf & _). destruct (m_canon _ _ El) as (_ & Cl & _).
  apply fzero_small in Z0; [|unfold canon, P in *; lia]. apply fzero_small in Z1; [|unfold canon, P in *; lia].
  assert (W : t !! (S (length t - 1) mod length t)%nat = Some f). { replace (S (length t - 1)) with (length t) by lia. rewrite Nat.mod_same by lia. exact Ef. }
  destruct (m_next _ l f El W) as (N1 & _ & N3 & _). destruct (m_bits _ _ Ef) as (_ & _ & _ & Bi & Be & _). destruct (m_bits _ _ El) as (_ & _ & _ & _ & Bl & _).
  assert (I : m_init f = 1). { destruct Bi as [Bi|Bi]; [|exact Bi]. destruct (N1 Bi). lia. }
  exists f, l. split; [exact Ef|]. split; [exact El|]. split; [lia|]. split; [lia|]. split; [exact I|]. split.
  - destruct Bl as [Bl|Bl]; [exact Bl|]. specialize (N3 Bl). exfalso. rewrite I in N3.
    replace (m_addr f - m_addr l - 1) with (- 2 ^ 32) in N3 by lia. revert N3. unfold u32. cbv. intros [_ K]. discriminate K.
  - destruct (m_bits _ _ Ef) as (_ & B1 & B2 & B3 & _). unfold m_executed, bit in *. lia.
Qed.
Lemma m_down k r r' : t !! k = Some r -> t !! S k = Some r' -> m_executed r' = 1 -> m_executed r = 1.
Proof.
  intros E E' U. pose proof (ts_transition _ _ (ma_sat _ A) k r r' E E') as Z0. cbn in Z0. apply Forall_inv in Z0. rewrite U in Z0.
  destruct (m_bits _ _ E) as (_ & _ & _ & _ & B & _). apply fzero_mul in Z0 as [K|K]; apply fzero_small in K; unfold bit, P in *; lia.
Qed.
Lemma m_succ k r r' : t !! k = Some r -> t !! S k = Some r' -> t !! (S k mod length t)%nat = Some r'.
Proof. intros E E'. rewrite (succ_lt t k r'); auto. Qed.
Lemma m_step k r r' : t !! k = Some r -> t !! S k = Some r' -> m_executed r = 1 -> 0 <= m_addr r <= Z.of_nat k * 2 ^ 32 -> (S k < length t - 1)%nat ->
  m_addr r' = m_addr r + m_init r' + (m_addr r' - m_addr r - m_init r') mod P /\ m_addr r' <= Z.of_nat (S k) * 2 ^ 32.
Proof.
  intros E E' U B L. destruct (m_next k r r' E (m_succ k r r' E E')) as (_ & _ & N3 & _). specialize (N3 U).
  pose proof (ma_len _ A) as M. unfold max_rows in M. destruct (m_bits _ _ E') as (_ & _ & _ & Bi & _). destruct (m_canon _ _ E') as (_ & C & _).
  assert (Q : m_addr r + m_init r' + (m_addr r' - m_addr r - m_init r') mod P < P) by (unfold bit, u32 in *; unfold P in *; lia).
  unfold u32 in N3. set (d := (m_addr r' - m_addr r - m_init r') mod P) in *.
  assert (E1 : (m_addr r + m_init r' + d) mod P = m_addr r' mod P).
  { unfold d. rewrite Zplus_mod_idemp_r. f_equal. lia. }
  rewrite !Z.mod_small in E1 by (unfold canon, bit in *; lia). unfold bit in *. lia.
Qed.
Lemma m_range k r : t !! k = Some r -> m_executed r = 1 -> 0 <= m_addr r <= Z.of_nat k * 2 ^ 32.
Proof.
  revert r. induction k as [|k IH]; intros r E U.
  - destruct m_ends as (f & l & Ef & El & Af & Al & If & Ul & Uf). rewrite E in Ef. injection Ef as <-. lia.
  - destruct (lookup_lt_is_Some_2 t k) as [q Eq]; [apply lookup_lt_Some in E; lia|]. pose proof (m_down k q r Eq E U) as Uq. specialize (IH q Eq Uq).
    assert (L : (S k < length t - 1)%nat).
    { destruct m_ends as (f & l & Ef & El & Af & Al & If & Ul & Uf). pose proof (lookup_lt_Some _ _ _ E). destruct (decide (S k = length t - 1)%nat) as [Q|]; [|lia].
      rewrite <- Q, E in El. injection El as <-. lia. }
    destruct (m_step k q r Eq E Uq IH L). destruct (m_canon _ _ E) as (_ & C & _). unfold canon in C. lia.
Qed.
Lemma m_mono k r r' : t !! k = Some r -> t !! S k = Some r' -> m_executed r' = 1 -> m_addr r + m_init r' <= m_addr r'.
Proof.
  intros E E' U. pose proof (m_down k r r' E E' U) as Uq. pose proof (m_range k r E Uq) as B.
  assert (L : (S k < length t - 1)%nat).
  { destruct m_ends as (f & l & Ef & El & Af & Al & If & Ul & Uf). pose proof (lookup_lt_Some _ _ _ E'). destruct (decide (S k = length t - 1)%nat) as [Q|]; [|lia].
    rewrite <- Q, E' in El. injection El as <-. lia. }
  destruct (m_step k r r' E E' Uq B L) as [K _]. pose proof (Z.mod_pos_bound (m_addr r' - m_addr r - m_init r') P ltac:(unfold P; lia)). lia.
Qed.
(** from any row on, addresses never decrease until the end of the table *)
Lemma m_le_last : forall d k r, (k + d = length t - 1)%nat -> t !! k = Some r -> m_addr r <= 2 ^ 32 - 1.
Proof.
  destruct m_ends as (f & l & Ef & El & Af & Al & If & Ul & Uf).
  induction d as [|d IH]; intros k r L E.
  - replace k with (length t - 1)%nat in E by lia. rewrite El in E. injection E as <-. lia.
  - destruct (lookup_lt_is_Some_2 t (S k)) as [r' E']; [lia|]. specialize (IH (S k) r' ltac:(lia) E').
    destruct (m_bits _ _ E') as (_ & B1 & B2 & B3 & B & _). destruct B as [B|B].
    + destruct (m_next k r r' E (m_succ k r r' E E')) as (N1 & _). destruct N1 as [N1 _]; [unfold m_executed, bit in *; lia|]. lia.
    + pose proof (m_mono k r r' E E' B). unfold bit in *. lia.
Qed.
Lemma m_addr_u32 r : In r t -> u32 (m_addr r).
Proof.
  intros I. apply In_lookup in I as [k E]. destruct (m_canon _ _ E) as (_ & C & _). pose proof (lookup_lt_Some _ _ _ E).
  pose proof (m_le_last (length t - 1 - k) k r ltac:(lia) E). unfold u32, canon in *. lia.
Qed.
Lemma m_time k r r' : t !! k = Some r -> t !! S k = Some r' -> m_executed r' = 1 -> m_init r' = 0 -> m_aug r <= m_aug r'.
Proof.
  intros E E' U I0. destruct (m_next k r r' E (m_succ k r r' E E')) as (_ & _ & _ & N4). specialize (N4 I0).
  pose proof (m_down k r r' E E' U) as Ur. pose proof (ma_init _ A) as HI. pose proof (ma_clk _ A) as HC. rewrite Forall_forall in HI, HC.
  specialize (HI r (lookup_In _ _ _ E)). pose proof (HC r (lookup_In _ _ _ E)) as HCr. specialize (HC r' (lookup_In _ _ _ E')).
  destruct (m_bits _ _ E) as (_ & B1 & B2 & B3 & _). destruct (m_bits _ _ E') as (_ & B1' & B2' & B3' & _).
  destruct (m_canon _ _ E) as (_ & _ & C & _). destruct (m_canon _ _ E') as (_ & _ & C' & _).
  assert (m_clk r' < 2 ^ 40) by (apply HC; unfold m_executed in *; lia).
  assert (m_clk r < 2 ^ 40). { unfold m_executed in Ur. destruct B3 as [B3|B3]; [apply HCr; lia|destruct HI; lia]. }
  unfold m_aug in *. unfold u32 in N4.
  remember (m_clk r' * 4 - m_store r' - m_load r' * 2 - m_init r' * 3 - (m_clk r * 4 - m_store r - m_load r * 2 - m_init r * 3)) as d.
  assert (- 2 ^ 43 < d < 2 ^ 43) by (clear N4 HI HC HCr U Ur E E'; unfold canon, bit in *; lia).
  destruct (Z.le_gt_cases 0 d) as [Q|Q]; [lia|]. exfalso.
  assert (D : d mod P = d + P). { symmetry. apply Z.mod_unique with (q := -1); unfold P; lia. } rewrite D in N4. unfold P in N4. lia.
Qed.
Definition mI r := m_init r = 1. Definition mL r := m_load r = 1. Definition mS r := m_store r = 1.
Lemma m_act k r : t !! k = Some r -> act mI mL mS r <-> m_executed r = 1.
Proof. intros E. destruct (m_bits _ _ E) as (_ & B1 & B2 & B3 & B4 & _). unfold act, mI, mL, mS, m_executed, bit in *. lia. Qed.
Lemma m_hyps :
  (forall r, mI r \/ ~ mI r) /\ (forall k r, t !! k = Some r -> mL r -> ~ mI r) /\ (forall k r, t !! k = Some r -> mS r -> ~ mI r) /\
  (forall k r, t !! k = Some r -> mL r -> ~ mS r) /\ (forall r, t !! 0%nat = Some r -> act mI mL mS r -> mI r) /\
  (forall k r r', t !! k = Some r -> t !! S k = Some r' -> act mI mL mS r' -> act mI mL mS r) /\
  (forall k r r', t !! k = Some r -> t !! S k = Some r' -> mI r' -> m_addr r < m_addr r') /\
  (forall k r r', t !! k = Some r -> t !! S k = Some r' -> act mI mL mS r' -> ~ mI r' -> m_addr r' = m_addr r /\ m_aug r <= m_aug r') /\
  (forall k r r', t !! k = Some r -> t !! S k = Some r' -> mL r' -> m_value r' = m_value r).
Proof.
  repeat split.
  - intros q. unfold mI. destruct (decide (m_init q = 1)); auto.
  - intros k q E. destruct (m_bits _ _ E) as (_ & B1 & B2 & B3 & B4 & _). unfold mI, mL, m_executed, bit in *. lia.
  - intros k q E. destruct (m_bits _ _ E) as (_ & B1 & B2 & B3 & B4 & _). unfold mI, mS, m_executed, bit in *. lia.
  - intros k q E. destruct (m_bits _ _ E) as (_ & B1 & B2 & B3 & B4 & _). unfold mL, mS, m_executed, bit in *. lia.
  - intros q Eq _. destruct m_ends as (f & l & Ef & El & Af & Al & If & Ul & Uf). rewrite Eq in Ef. injection Ef as <-. exact If.
  - intros k q q' Eq Eq' K. apply (m_act _ _ Eq). apply (m_act _ _ Eq') in K. eapply m_down; eauto.
  - intros k q q' Eq Eq' I. assert (U : m_executed q' = 1) by (apply (m_act _ _ Eq'); left; exact I). pose proof (m_mono k q q' Eq Eq' U). unfold mI in I. lia.
  - destruct (m_next k r r' H (m_succ k r r' H H0)) as (N1 & _). apply N1. destruct (m_bits _ _ H0) as (_ & _ & _ & B & _). unfold mI, bit in *. lia.
  - apply (m_time k r r'); auto; [apply (m_act _ _ H0); auto|]. destruct (m_bits _ _ H0) as (_ & _ & _ & B & _). unfold mI, bit in *. lia.
  - intros k q q' Eq Eq' K. destruct (m_next k q q' Eq (m_succ k q q' Eq Eq')) as (_ & N2 & _). apply N2, K.
Qed.
Lemma mem_reads : forall r, In r t -> m_load r = 1 -> reads_last_write t mI mS m_addr m_aug m_value r.
Proof.
  destruct m_hyps as (H1 & H2 & H3 & H4 & H5 & H6 & H7 & H8 & H9).
  apply (srt_reads t m_addr m_aug m_value mI mL mS H1 H2 H3 H4 H5 H6 (fun k r r' E E' I => or_introl (H7 k r r' E E' I)) H8 H9).
  intros i w k q Ew Eq W K. destruct (m_bits _ _ Eq) as (_ & B1 & B2 & B3 & B4 & _). destruct (m_bits _ _ Ew) as (_ & B1' & B2' & B3' & B4' & _).
  unfold mS, mL, m_aug, m_executed, bit in *. lia.
Qed.
Lemma mem_init_unique i j p q : t !! i = Some p -> t !! j = Some q -> m_init p = 1 -> m_init q = 1 -> m_addr p = m_addr q -> i = j.
Proof.
  destruct m_hyps as (H1 & H2 & H3 & H4 & H5 & H6 & H7 & H8 & H9).
  eapply (srt_init_unique t m_addr m_aug m_value mI mL mS); eauto.
Qed.
Lemma mem_block k r : t !! k = Some r -> m_executed r = 1 ->
  exists i p, (i <= k)%nat /\ t !! i = Some p /\ m_init p = 1 /\ m_addr p = m_addr r /\ m_writable p = m_writable r.
Proof.
  revert r. induction k as [|k IH]; intros r E U.
  - exists 0%nat, r. destruct m_ends as (f & l & Ef & El & Af & Al & If & Ul & Uf). rewrite E in Ef. injection Ef as <-. auto.
  - destruct (m_bits _ _ E) as (_ & B1 & B2 & B3 & B4 & _). destruct B3 as [B3|B3]; [|exists (S k), r; auto].
    destruct (lookup_lt_is_Some_2 t k) as [q Eq]; [apply lookup_lt_Some in E; lia|].
    destruct (IH q Eq (m_down k q r Eq E U)) as (i & p & L & Ep & I & Ea & Ew).
    destruct (m_next k q r Eq (m_succ k q r Eq E)) as (N1 & _). destruct (N1 B3) as [Na Nw]. exists i, p. rewrite Na, Nw. auto.
Qed.
Lemma mem_readonly i w : In i t -> In w t -> m_init i = 1 -> m_writable i = 0 -> m_addr w = m_addr i -> m_store w = 0.
Proof.
  intros Ii Iw In0 W Ea. apply In_lookup in Ii as [j Ej]. apply In_lookup in Iw as [k Ek].
  destruct (m_bits _ _ Ek) as (_ & B1 & B2 & B3 & B4 & SW). destruct B1 as [B1|B1]; [exact B1|exfalso].
  destruct (mem_block k w Ek) as (x & p & L & Ep & I & Pa & Pw); [unfold m_executed, bit in *; lia|].
  pose proof (mem_init_unique x j p i Ep Ej I In0 ltac:(lia)) as Q. subst x. rewrite Ej in Ep. injection Ep as <-. specialize (SW B1). lia.
Qed.
End Mem.
