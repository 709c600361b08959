(** What accepted hash tables say: proofs. *)
From Verif Require Import PoseidonSpec DeviceProofs PoseidonPerm PoseidonGen PoseidonLook ExecProofs TableProofs CpuTrace StateProofs WordProofs StateWitness CpuProofs WordProps.
Open Scope Z_scope.

Lemma canon_feq a b : canon a -> canon b -> feq a b -> a = b.
Proof. unfold canon, feq. intros A B E. rewrite !Z.mod_small in E by assumption. exact E. Qed.
Lemma state12_nth l i : state12 l -> canon (nth i l 0).
Proof. intros [_ C]. destruct (le_lt_dec (length l) i); [rewrite nth_overflow by assumption; unfold canon; split; [lia|reflexivity]|]. rewrite List.Forall_forall in C. apply C, nth_In. assumption. Qed.

(** ** Sponge rows *)
Section Sponge.
Variable t : list sprow.
Hypothesis A : sp_accepted t.
Hypothesis CH : sp_chained t.

Lemma sp_can k r : t !! k = Some r -> sp_canon r.
Proof. intros E. pose proof (spa_canon _ A) as C. rewrite List.Forall_forall in C. apply C. eapply lookup_In; eauto. Qed.
Lemma sp_local k r : t !! k = Some r -> row_ok r.
Proof.
  clear CH. intros E. pose proof (sp_can k r E) as (C1 & C2 & C3 & C4 & C5 & C6 & C7 & C8 & C9).
  assert (X : exists r', all_zero (a_always sponge_air r r')).
  { pose proof (spa_sat _ A) as ST. destruct t as [|x l] eqn:Et; [discriminate|]. assert (L : (S k < length ((x :: l) ++ [x]))%nat) by (apply lookup_lt_Some in E; rewrite app_length; cbn [length] in *; lia).
    apply lookup_lt_is_Some in L as [r' E']. exists r'. eapply sat_always; [exact ST|]. eapply (adj_lookup_In _ k); [|exact E']. rewrite lookup_app_l; [exact E|]. apply lookup_lt_Some in E. exact E. }
  destruct X as [r' X]. cbn [a_always sponge_air] in X. apply List.Forall_app in X as [X X2]. apply List.Forall_app in X2 as [X2 _].
  repeat (apply Forall_cons_iff in X as [? X]). 
  assert (B1 : bit (s_permute r)) by (apply binary_canon; assumption). assert (B2 : bit (s_init r)) by (apply binary_canon; assumption). assert (B3 : bit (s_gen r)) by (apply binary_canon; assumption).
  assert (B4 : bit (s_executed r)). { apply binary_canon; [|assumption]. unfold s_executed, bit, canon, P in *. lia. }
  constructor; auto.
  - intros Q. rewrite Q in *. match goal with Y : fzero ((1 - 0) * s_gen r) |- _ => replace ((1 - 0) * s_gen r) with (s_gen r) in Y by lia; apply fzero_small in Y; [exact Y|unfold canon in C9; lia] end.
  - intros Q. rewrite Q in *. match goal with Y : fzero (1 * (s_len r - 8)) |- _ => replace (1 * (s_len r - 8)) with (s_len r - 8) in Y by lia; apply fzero_feq in Y; apply canon_feq in Y; [exact Y|exact C6|unfold canon, P; lia] end.
  - intros Q j Hj. rewrite List.Forall_forall in X2. specialize (X2 (s_init r * at_ (s_pre r) j) ltac:(apply in_map_iff; exists j; split; [reflexivity|apply in_seq; lia])). rewrite Q in X2. rewrite Z.mul_1_l in X2.
    pose proof (state12_nth (s_pre r) j C7) as Cj. apply fzero_small in X2; [exact X2|unfold canon in Cj; unfold at_; lia].
Qed.
Lemma sp_step k r r' : t !! k = Some r -> t !! S k = Some r' ->
  (s_gen r = 1 -> s_permute r' = 0) /\
  (s_permute r' = 1 -> s_clk r' = s_clk r /\ forall j, (8 <= j < 12)%nat -> at_ (s_pre r') j = at_ (s_post r) j) /\
  (s_executed r = 1 -> s_gen r = 0 -> feq (s_len r) (s_len r' + 8) /\ feq (s_in r') (s_in r + 8)).
Proof.
  clear CH. intros E E'. pose proof (sp_can k r E) as (C1 & C2 & C3 & C4 & C5 & C6 & C7 & C8 & C9). pose proof (sp_can _ r' E') as (C1' & C2' & C3' & C4' & C5' & C6' & C7' & C8' & C9').
  destruct (sp_local _ _ E) as [B1 B2 B3 B4 D L C]. destruct (sp_local _ _ E') as [B1' B2' B3' B4' _ _ _].
  pose proof (spa_sat _ A) as ST. pose proof (ts_transition _ _ ST k r r' E E') as T.
  assert (X : all_zero (a_always sponge_air r r')). { destruct t as [|x l] eqn:Et; [discriminate|]. eapply sat_always; [exact ST|]. eapply (adj_lookup_In _ k); (rewrite lookup_app_l; [assumption|]; apply lookup_lt_Some in E'; lia). }
  cbn [a_always a_transition sponge_air] in X, T. apply List.Forall_app in X as [X X2]. apply List.Forall_app in X2 as [_ X2].
  do 6 apply Forall_cons_iff in X as [_ X]. apply Forall_cons_iff in X as [X _]. apply Forall_cons_iff in T as [T1 T]. apply Forall_cons_iff in T as [T2 T]. apply Forall_cons_iff in T as [T3 _].
  split; [|split].
  - intros Q. rewrite Q, Z.mul_1_l in X. unfold not_start in X. destruct B2' as [Z0|O1]; [exact Z0|]. assert (I0 : s_init r' = 0) by (unfold s_executed, bit in *; lia). rewrite I0, O1 in X. exfalso. revert X. unfold fzero. vm_compute. discriminate.
  - intros O1. assert (I0 : s_init r' = 0) by (unfold s_executed, bit in *; lia). split.
    + rewrite O1, Z.mul_1_l in T1. apply fzero_feq in T1. symmetry. apply canon_feq; assumption.
    + intros j Hj. rewrite List.Forall_forall in X2. specialize (X2 ((1 - s_init r') * s_permute r' * (at_ (s_pre r') j - at_ (s_post r) j)) ltac:(apply in_map_iff; exists j; split; [reflexivity|apply in_seq; lia])).
      rewrite I0, O1 in X2. replace ((1 - 0) * 1 * (at_ (s_pre r') j - at_ (s_post r) j)) with (at_ (s_pre r') j - at_ (s_post r) j) in X2 by lia. apply fzero_feq in X2. apply canon_feq; [apply (state12_nth _ j C7')|apply (state12_nth _ j C8)|exact X2].
  - intros X1 G. assert (N1 : (1 - s_gen r) * (s_permute r + s_init r) = 1) by (unfold s_executed in X1; rewrite G; lia). rewrite N1 in T2, T3. rewrite Z.mul_1_l in T2, T3. split; [apply fzero_feq, T2|].
    apply fzero_feq in T3. unfold feq in *. rewrite Zplus_mod, T3, <- Zplus_mod. f_equal. lia.
Qed.
Lemma sp_first r : t !! 0%nat = Some r -> s_permute r = 0.
Proof.
  clear CH. intros E. pose proof (spa_sat _ A) as ST. assert (H0 : all_zero (a_first sponge_air r)). { apply (ts_first _ _ ST). exact E. }
  apply Forall_cons_iff in H0 as [X _]. destruct (sp_local _ _ E) as [B1 B2 _ B4 _ _ _]. destruct B2 as [Z0|O1]; [exact Z0|]. assert (I0 : s_init r = 0) by (unfold s_executed, bit in *; lia).
  unfold not_start in X. rewrite I0, O1 in X. exfalso. revert X. unfold fzero. vm_compute. discriminate.
Qed.
Lemma chain_from : forall n k r, (length t - k)%nat = n -> t !! k = Some r -> s_executed r = 1 -> exists seg, seg !! 0%nat = Some r /\
  (forall j q, seg !! j = Some q -> t !! (k + j)%nat = Some q /\ s_executed q = 1 /\ s_clk q = s_clk r /\ s_out q = s_out r /\ s_gen q = (if (S j =? length seg)%nat then 1 else 0) /\
     ((0 < j)%nat -> s_permute q = 1) /\ feq (s_in q) (s_in r + 8 * Z.of_nat j) /\ s_len q = 8 * (Z.of_nat (length seg) - Z.of_nat j)).
Proof.
  induction n as [|n IH]; intros k r N E X; [apply lookup_lt_Some in E; lia|]. pose proof (sp_can k r E) as (C1 & C2 & C3 & C4 & C5 & C6 & C7 & C8 & C9). destruct (sp_local _ _ E) as [B1 B2 B3 B4 D L C].
  destruct B3 as [G|G].
  - assert (L' : (S k < length t)%nat).
    { destruct (le_lt_dec (length t) (S k)) as [Q|Q]; [|exact Q]. exfalso. assert (EL : stdpp.list.last t = Some r) by (rewrite last_lookup; replace (pred (length t)) with k by (apply lookup_lt_Some in E; lia); exact E).
      rewrite (sc_last _ CH r EL X) in G. discriminate. }
    apply lookup_lt_is_Some in L' as [r' E']. destruct (sc_next _ CH k r r' E E' X G) as [P1 O1]. destruct (sp_local _ _ E') as [B1' B2' B3' B4' _ _ _].
    assert (X' : s_executed r' = 1) by (unfold s_executed, bit in *; lia). destruct (sp_step k r r' E E') as (_ & S2 & S3). destruct (S2 P1) as [Ck _]. destruct (S3 X G) as [Ln In_].
    destruct (IH (S k) r' ltac:(lia) E' X') as (seg & E0 & HS). exists (r :: seg). split; [reflexivity|]. intros [|j] q Eq.
    + cbn in Eq. injection Eq as <-. rewrite Nat.add_0_r. split; [exact E|]. split; [exact X|]. split; [reflexivity|]. split; [reflexivity|]. split.
      { destruct seg; [discriminate|]. cbn [length Nat.eqb]. exact G. }
      split; [lia|]. split; [unfold feq; f_equal; lia|]. destruct (HS 0%nat r' E0) as (_ & _ & _ & _ & _ & _ & _ & L0). cbn [length].
      assert (LS : (k + length seg < length t)%nat).
      { assert (length seg <> 0%nat) by (destruct seg; [discriminate|cbn; lia]). destruct (seg !! (length seg - 1)%nat) as [z|] eqn:Ez; [|apply lookup_ge_None in Ez; lia]. destruct (HS _ _ Ez) as (Et & _). apply lookup_lt_Some in Et. lia. }
      pose proof (spa_len _ A) as ML. unfold max_rows in ML. apply canon_feq; [exact C6|unfold canon, P; lia|]. unfold feq in *. rewrite Ln, L0. f_equal. lia.
    + change (seg !! j = Some q) in Eq. destruct (HS j q Eq) as (H1 & H2 & H3 & H4 & H5 & H6 & H7 & H8). split; [replace (k + S j)%nat with (S k + j)%nat by lia; exact H1|]. split; [exact H2|]. split; [congruence|]. split; [congruence|]. split; [exact H5|]. split.
      { intros _. destruct j as [|j]; [|apply H6; lia]. rewrite E0 in Eq. injection Eq as <-. exact P1. }
      split; [|cbn [length]; lia]. unfold feq in *. rewrite H7, Zplus_mod, In_, <- Zplus_mod. f_equal. lia.
  - exists [r]. split; [reflexivity|]. intros [|j] q Eq; [|destruct j; discriminate]. cbn in Eq. injection Eq as <-. rewrite Nat.add_0_r. split; [exact E|]. split; [exact X|]. split; [reflexivity|]. split; [reflexivity|]. split; [exact G|]. split; [lia|]. split; [unfold feq; f_equal; lia|]. rewrite (L G). reflexivity.
Qed.
Lemma back_to_init : forall k q, t !! k = Some q -> s_executed q = 1 -> exists k0 q0, (k0 <= k)%nat /\ t !! k0 = Some q0 /\ s_init q0 = 1 /\ s_clk q0 = s_clk q /\ s_out q0 = s_out q /\ feq (s_in q) (s_in q0 + 8 * Z.of_nat (k - k0)) /\
  forall j, (k0 <= j < k)%nat -> exists z, t !! j = Some z /\ s_gen z = 0 /\ s_executed z = 1.
Proof.
  induction k as [|k IH]; intros q E X; destruct (sp_local _ _ E) as [B1 B2 _ B4 _ _ _].
  - pose proof (sp_first q E) as P0. exists 0%nat, q. split; [lia|]. split; [exact E|]. split; [unfold s_executed in X; lia|]. split; [reflexivity|]. split; [reflexivity|]. split; [unfold feq; f_equal; cbn; lia|]. intros j Hj. lia.
  - destruct B2 as [P0|P1].
    + exists (S k), q. split; [lia|]. split; [exact E|]. split; [unfold s_executed in X; lia|]. split; [reflexivity|]. split; [reflexivity|]. split; [unfold feq; f_equal; lia|]. intros j Hj. lia.
    + destruct (sc_prev _ CH k q E P1) as (r & Er & Xr). destruct (sp_step k r q Er E) as (S1 & S2 & S3). destruct (sp_local _ _ Er) as [_ _ B3 _ _ _ _].
      assert (G : s_gen r = 0) by (destruct B3 as [G|G]; [exact G|rewrite (S1 G) in P1; discriminate]). destruct (S2 P1) as [Ck _]. destruct (S3 Xr G) as [_ In_]. destruct (sc_next _ CH k r q Er E Xr G) as [_ O].
      destruct (IH r Er Xr) as (k0 & q0 & L & E0 & I0 & Ck0 & O0 & F0 & Z0). exists k0, q0. split; [lia|]. split; [exact E0|]. split; [exact I0|]. split; [congruence|]. split; [congruence|]. split.
      * assert (Q : Z.of_nat (S k - k0) = Z.of_nat (k - k0) + 1) by (clear - L; lia). rewrite Q. unfold feq in *. rewrite In_, Zplus_mod, F0, <- Zplus_mod. f_equal. ring.
      * intros j Hj. destruct (Nat.eq_dec j k) as [->|]; [exists r; auto|]. apply Z0. lia.
Qed.
End Sponge.

(** ** The message of a chain of rows *)
Definition seg_msg (seg : list sprow) : list Z := flat_map (fun r => take 8 (s_pre r)) seg.
Definition seg_sponge (seg : list sprow) : list sponge_data := map (fun r => mkSponge (s_pre r) (s_post r) (s_gen r)) seg.
Lemma flat_block {B} (f : B -> list Z) l : (forall x, In x l -> length (f x) = 8%nat) -> forall k x, l !! k = Some x -> take 8 (drop (8 * k) (flat_map f l)) = f x.
Proof.
  induction l as [|y l IH]; intros H k x E; [discriminate|]. destruct k as [|k].
  - cbn in E. injection E as ->. cbn [flat_map]. rewrite Nat.mul_0_r, drop_0. rewrite <- (H x (or_introl eq_refl)). apply take_app.
  - cbn in E. cbn [flat_map]. replace (8 * S k)%nat with (length (f y) + 8 * k)%nat by (rewrite (H y (or_introl eq_refl)); lia). rewrite drop_app_ge by lia. replace (length (f y) + 8 * k - length (f y))%nat with (8 * k)%nat by lia. apply IH; auto. intros; apply H; right; assumption.
Qed.
Lemma flat_len {B} (f : B -> list Z) l : (forall x, In x l -> length (f x) = 8%nat) -> length (flat_map f l) = (8 * length l)%nat.
Proof. induction l as [|y l IH]; intros H; [reflexivity|]. cbn [flat_map length]. rewrite app_length, (H y (or_introl eq_refl)), IH; [lia|]. intros; apply H; right; assumption. Qed.
Lemma drop8_eq (a b : list Z) : length a = 12%nat -> length b = 12%nat -> (forall j, (8 <= j < 12)%nat -> at_ a j = at_ b j) -> drop 8 a = drop 8 b.
Proof.
  intros La Lb H. do 13 (destruct a as [|? a]; [try discriminate La|]); [|discriminate La]. do 13 (destruct b as [|? b]; [try discriminate Lb|]); [|discriminate Lb]. cbn [drop].
  pose proof (H 8%nat ltac:(lia)) as H8. pose proof (H 9%nat ltac:(lia)) as H9. pose proof (H 10%nat ltac:(lia)) as H10. pose proof (H 11%nat ltac:(lia)) as H11. cbn in H8, H9, H10, H11. congruence.
Qed.
Lemma skipn_drop {B} n (l : list B) : drop n l = skipn n l. Proof. reflexivity. Qed.

(** ** The tables together *)
Section System.
Variable K : p2consts.
Hypothesis K0 : (0 < k_half K)%nat.
Variables (cpus : list cpu) (half full : list wordrow) (sponge : list sprow) (perm : list prow) (ob : list obrow) (rest : entries) (mem : list memrow).
Hypothesis HS : hash_system K cpus half full sponge perm ob rest mem.
Let MS := hs_mem _ _ _ _ _ _ _ _ _ HS.
Let A := hs_sponge _ _ _ _ _ _ _ _ _ HS.

Lemma into_mem_mod c st ld a v : canon c -> canon st -> canon ld -> canon v ->
  In ([c; st; ld; a; v], 1) (sp_mem_looking sponge ++ ob_mem_looking ob ++ rest) -> accesses mem c st ld (a mod P) v /\ u32 (a mod P) /\ u8 v.
Proof.
  intros Cc Cs Cl Cv I.
  assert (I' : In ([c; st; ld; a; v], 1) (cpu_byte_looking cpus ++ (sp_mem_looking sponge ++ ob_mem_looking ob ++ rest) ++ word_limb_looking 4 full ++ word_limb_looking 2 half)) by (apply in_or_app; right; apply in_or_app; left; exact I).
  destruct (ctl_member _ _ _ (ms_into _ _ _ _ _ MS) (into_bits _ _ _ _ _ MS) (into_len _ _ _ _ _ MS) I') as (q & m & Im & Ky & NZ).
  assert (Ca : canon (a mod P)) by (unfold canon; apply Z.mod_pos_bound; reflexivity).
  assert (Kq : tuple_key q = tuple_key [c; st; ld; a mod P; v]) by (rewrite Ky; unfold tuple_key; cbn [map]; rewrite Z.mod_mod by discriminate; reflexivity). clear Ky.
  unfold mem_looked in Im. apply in_map_iff in Im as (z & E & Iq). injection E as <- <-. pose proof (ms_mem _ _ _ _ _ MS) as MA.
  pose proof (ma_canon _ MA) as CM. rewrite List.Forall_forall in CM. destruct (CM z Iq) as (C1 & C2 & C3 & C4 & C5 & C6 & C7).
  apply tuple_canon in Kq; [|repeat (constructor; auto)|repeat (constructor; auto)]. injection Kq as E1 E2 E3 E4 E5. rewrite <- E1, <- E2, <- E3, <- E4, <- E5. split; [|split].
  - exists z. auto 6.
  - apply (m_addr_u32 mem MA z Iq).
  - destruct (In_lookup _ _ Iq) as [k Ek]. destruct (m_bits mem MA k z Ek) as (_ & B1 & B2 & B3 & B4 & _).
    apply (ma_u8 _ MA _ (m_executed z)); [unfold mem_u8_looking; apply in_map_iff; exists z; auto|].
    intros Z0. apply NZ. unfold m_executed, bit in *. apply fzero_small in Z0; [|unfold P; lia]. replace (m_store z + m_load z) with 0 by lia. reflexivity.
Qed.
Lemma row_at q : In q sponge -> exists k, sponge !! k = Some q /\ row_ok q /\ sp_canon q.
Proof. intros I. apply In_lookup in I as [k E]. exists k. split; [exact E|]. split; [eapply sp_local; eauto|eapply sp_can; eauto]. Qed.
(** a byte of a block that is absorbed is loaded from memory *)
Lemma block_loads q j : In q sponge -> s_executed q = 1 -> (j < 8)%nat ->
  accesses mem (s_clk q) 0 1 ((s_in q + Z.of_nat j) mod P) (at_ (s_pre q) j) /\ u32 ((s_in q + Z.of_nat j) mod P) /\ u8 (at_ (s_pre q) j).
Proof.
  intros I X J. destruct (row_at q I) as (k & E & _ & (C1 & C2 & C3 & C4 & C5 & C6 & C7 & C8 & C9)). apply into_mem_mod; auto; try (unfold canon, P; lia); [apply (state12_nth _ j C7)|].
  apply in_or_app. left. unfold sp_mem_looking. apply in_flat_map. exists j. split; [apply in_seq; lia|]. apply in_map_iff. exists q. rewrite X. auto.
Qed.
(** absorbing a block is one permutation *)
Lemma block_permuted q : Forall (fun r => q_exe r = 1 -> cubes_ok K r) perm -> In q sponge -> s_executed q = 1 -> s_post q = poseidon2_permutation K (s_pre q).
Proof.
  intros CB I X. destruct (row_at q I) as (k & E & _ & (C1 & C2 & C3 & C4 & C5 & C6 & C7 & C8 & C9)).
  assert (Ik : In (s_pre q ++ s_post q, 1) (sp_perm_looked sponge)) by (unfold sp_perm_looked; apply in_map_iff; exists q; rewrite X; auto).
  apply (ctl_member _ _ _ (ctl_sym _ _ (hs_perm_ctl _ _ _ _ _ _ _ _ _ HS))) in Ik.
  - destruct Ik as (tp & m & It & Ky & NZ). unfold perm_looking in It. apply in_map_iff in It as (r & Er & Ir). injection Er as <- <-.
    pose proof (hs_perm _ _ _ _ _ _ _ _ _ HS) as PA. pose proof (pa_canon _ _ PA) as PC. rewrite List.Forall_forall in PC, CB. pose proof (PC r Ir) as Cr.
    assert (AZ : exists r', all_zero (a_always (perm_air K) r r')).
    { pose proof (pa_sat _ _ PA) as ST. apply In_lookup in Ir as [j Ej]. destruct perm as [|x l]; [discriminate|]. assert (L : (S j < length ((x :: l) ++ [x]))%nat) by (apply lookup_lt_Some in Ej; rewrite app_length; cbn [length] in *; lia).
      apply lookup_lt_is_Some in L as [r' E']. exists r'. eapply sat_always; [exact ST|]. eapply (adj_lookup_In _ j); [|exact E']. rewrite lookup_app_l; [exact Ej|]. apply lookup_lt_Some in Ej. exact Ej. }
    destruct AZ as [r' AZ]. assert (BX : bit (q_exe r)). { cbn [a_always perm_air] in AZ. apply Forall_cons_iff in AZ as [AZ _]. apply binary_canon; [apply (pc_exe _ _ Cr)|exact AZ]. }
    assert (X1 : q_exe r = 1). { destruct BX as [Q|Q]; [exfalso; apply NZ; rewrite Q; reflexivity|exact Q]. }
    pose proof (perm_sound K r r' K0 Cr (CB r Ir X1) AZ) as PS. 
    assert (S2 : state12 (last_state_of (q_second r))). { unfold last_state_of. destruct (pc_second _ _ Cr) as [L F]. apply (last_Forall state12); [destruct (q_second r); [cbn in L; lia|discriminate]|exact F]. }
    apply tuple_canon in Ky; [|apply List.Forall_app; split; [apply (pc_input _ _ Cr)|apply S2]|apply List.Forall_app; split; [apply C7|apply C8]].
    apply app_inj_1 in Ky as [K1 K2]; [|rewrite (proj1 (pc_input _ _ Cr)), (proj1 C7); reflexivity]. rewrite <- K1, <- K2. exact PS.
  - apply List.Forall_forall. intros e Ie. unfold sp_perm_looked in Ie. apply in_map_iff in Ie as (z & <- & Iz). cbn [snd]. destruct (row_at z Iz) as (_ & _ & RO & _). apply (ro_exe _ RO).
  - unfold sp_perm_looked. rewrite map_length. pose proof (spa_len _ A) as L. unfold max_rows in L. unfold P. lia.
Qed.
Lemma ob_row_ok q : In q ob -> bit (o_exe q) /\ ob_canon q /\ forall j, (j < 4)%nat -> feq (reduce_with_powers (take 8 (drop (8 * j) (o_bytes q))) 256) (at_ (o_fields q) j).
Proof.
  intros I. pose proof (hs_ob _ _ _ _ _ _ _ _ _ HS) as OA. pose proof (oba_canon _ OA) as OC. rewrite List.Forall_forall in OC. pose proof (OC q I) as Cq.
  assert (AZ : exists r', all_zero (a_always ob_air q r')).
  { pose proof (oba_sat _ OA) as ST. apply In_lookup in I as [j Ej]. destruct ob as [|x l]; [discriminate|]. assert (L : (S j < length ((x :: l) ++ [x]))%nat) by (apply lookup_lt_Some in Ej; rewrite app_length; cbn [length] in *; lia).
    apply lookup_lt_is_Some in L as [r' E']. exists r'. eapply sat_always; [exact ST|]. eapply (adj_lookup_In _ j); [|exact E']. rewrite lookup_app_l; [exact Ej|]. apply lookup_lt_Some in Ej. exact Ej. }
  destruct AZ as [r' AZ]. cbn [a_always ob_air] in AZ. apply Forall_cons_iff in AZ as [B AZ]. split; [apply binary_canon; [apply Cq|exact B]|]. split; [exact Cq|].
  intros j J. rewrite List.Forall_forall in AZ. apply fzero_feq, AZ, in_map_iff. exists j. split; [reflexivity|apply in_seq; lia].
Qed.
Lemma ob_stores q j : In q ob -> o_exe q = 1 -> (j < 32)%nat ->
  accesses mem (o_clk q) 1 0 ((o_addr q + Z.of_nat j) mod P) (at_ (o_bytes q) j) /\ u32 ((o_addr q + Z.of_nat j) mod P) /\ u8 (at_ (o_bytes q) j).
Proof.
  intros I X J. destruct (ob_row_ok q I) as (_ & (C1 & C2 & C3 & C4 & C5 & C6 & C7) & _). apply into_mem_mod; auto; try (unfold canon, P; lia); [rewrite List.Forall_forall in C7; apply C7, nth_In; lia|].
  apply in_or_app. right. apply in_or_app. left. unfold ob_mem_looking. apply in_flat_map. exists j. split; [apply in_seq; lia|]. apply in_map_iff. exists q. rewrite X. auto.
Qed.
Lemma out_row q : In q sponge -> s_gen q = 1 -> exists z, In z ob /\ o_exe z = 1 /\ o_clk z = s_clk q /\ o_addr z = s_out q /\ o_fields z = take 4 (s_post q).
Proof.
  intros I G. destruct (row_at q I) as (k & E & _ & (C1 & C2 & C3 & C4 & C5 & C6 & C7 & C8 & C9)).
  assert (Ik : In (s_clk q :: s_out q :: take 4 (s_post q), 1) (sp_out_looked sponge)) by (unfold sp_out_looked; apply in_map_iff; exists q; rewrite G; auto).
  apply (ctl_member _ _ _ (ctl_sym _ _ (hs_ob_ctl _ _ _ _ _ _ _ _ _ HS))) in Ik.
  - destruct Ik as (tp & m & It & Ky & NZ). unfold ob_looking in It. apply in_map_iff in It as (z & Ez & Iz). injection Ez as <- <-. destruct (ob_row_ok z Iz) as (B & (D1 & D2 & D3 & D4 & D5 & _) & _).
    apply tuple_canon in Ky; [|constructor; [exact D2|constructor; [exact D3|exact D5]]|constructor; [exact C1|constructor; [exact C5|apply Forall_take, C8]]]. injection Ky as K1 K2 K3. exists z. split; [exact Iz|].
    split; [destruct B as [Q|Q]; [exfalso; apply NZ; rewrite Q; reflexivity|exact Q]|]. auto.
  - apply List.Forall_forall. intros e Ie. unfold sp_out_looked in Ie. apply in_map_iff in Ie as (z & <- & Iz). cbn [snd]. destruct (row_at z Iz) as (_ & _ & RO & _). apply (ro_gen _ RO).
  - unfold sp_out_looked. rewrite map_length. pose proof (spa_len _ A) as L. unfold max_rows in L. unfold P. lia.
Qed.
Lemma out_back z : In z ob -> o_exe z = 1 -> exists q, In q sponge /\ s_gen q = 1 /\ s_clk q = o_clk z /\ s_out q = o_addr z /\ take 4 (s_post q) = o_fields z.
Proof.
  intros I X. destruct (ob_row_ok z I) as (B & (D1 & D2 & D3 & D4 & D5 & _) & _).
  assert (Ik : In (o_clk z :: o_addr z :: o_fields z, 1) (ob_looking ob)) by (unfold ob_looking; apply in_map_iff; exists z; rewrite X; auto).
  apply (ctl_member _ _ _ (hs_ob_ctl _ _ _ _ _ _ _ _ _ HS)) in Ik.
  - destruct Ik as (tp & m & It & Ky & NZ). unfold sp_out_looked in It. apply in_map_iff in It as (q & Eq & Iq). injection Eq as <- <-. destruct (row_at q Iq) as (_ & _ & RO & (C1 & C2 & C3 & C4 & C5 & C6 & C7 & C8 & C9)).
    apply tuple_canon in Ky; [|constructor; [exact C1|constructor; [exact C5|apply Forall_take, C8]]|constructor; [exact D2|constructor; [exact D3|exact D5]]]. injection Ky as K1 K2 K3. exists q. split; [exact Iq|].
    split; [destruct (ro_gen _ RO) as [Q|Q]; [exfalso; apply NZ; rewrite Q; reflexivity|exact Q]|]. auto.
  - apply List.Forall_forall. intros e Ie. unfold ob_looking in Ie. apply in_map_iff in Ie as (y & <- & Iy). cbn [snd]. apply (ob_row_ok y Iy).
  - unfold ob_looking. rewrite map_length. pose proof (oba_len _ (hs_ob _ _ _ _ _ _ _ _ _ HS)) as L. unfold max_rows in L. unfold P. lia.
Qed.
(** the CPU side *)
Lemma cpu_sel r : In r cpus -> bit (c_ecall r e_poseidon2) /\ canon (c_clk r).
Proof.
  intros I. destruct (accepted_always _ _ (ms_cpu _ _ _ _ _ MS) I) as [C Z0]. split.
  - destruct (one_hot r C Z0) as [B O]. destruct (ecall_sound r C Z0) as [E1 E0]. destruct (B o_ecall) as [Q|Q]; [left; apply E0, Q|]. destruct (E1 Q) as (e & He & _ & N).
    destruct (decide (e_poseidon2 = e)) as [->|D]; [right; exact He|left; apply N, D].
  - pose proof (ac_canon _ (ms_cpu _ _ _ _ _ MS)) as CC. rewrite List.Forall_forall in CC. specialize (CC r I). rewrite List.Forall_forall in CC. apply CC. left. reflexivity.
Qed.
Lemma filter_le {B} (f : B -> bool) l : (length (List.filter f l) <= length l)%nat.
Proof. induction l as [|x l IH]; [cbn; lia|]. cbn [List.filter]. destruct (f x); cbn [length]; lia. Qed.
Lemma mult_count {B} (f g : B -> Z) l c : canon c -> (forall x, In x l -> canon (f x) /\ bit (g x)) ->
  mult_of [c] (map (fun x => ([f x], g x)) l) = Z.of_nat (length (List.filter (fun x => (g x =? 1) && (f x =? c)) l)).
Proof.
  intros Cc H. induction l as [|x l IH]; [reflexivity|]. cbn [map List.filter]. rewrite mult_of_cons, IH by (intros; apply H; right; assumption). destruct (H x (or_introl eq_refl)) as [Cx Bx].
  destruct (Z.eqb_spec (f x) c) as [->|N].
  - rewrite decide_True by reflexivity. destruct Bx as [-> | ->]; cbn [Z.eqb Pos.eqb andb length]; lia.
  - rewrite andb_false_r. rewrite decide_False; [lia|]. intros Ky. apply N. apply tuple_canon in Ky; [injection Ky as E; exact E|repeat (constructor; auto)|repeat (constructor; auto)].
Qed.
Lemma calls_count c : canon c -> length (List.filter (fun q => (s_init q =? 1) && (s_clk q =? c)) sponge) = length (List.filter (fun r => (c_ecall r e_poseidon2 =? 1) && (c_clk r =? c)) cpus).
Proof.
  intros Cc. pose proof (hs_cpu _ _ _ _ _ _ _ _ _ HS [c]) as F. unfold sp_cpu_looking, cpu_sp_looked in F. rewrite (mult_count s_clk s_init sponge c Cc), (mult_count c_clk (fun r => c_ecall r e_poseidon2) cpus c Cc) in F.
  - pose proof (filter_le (fun q => (s_init q =? 1) && (s_clk q =? c)) sponge) as L1. pose proof (filter_le (fun r => (c_ecall r e_poseidon2 =? 1) && (c_clk r =? c)) cpus) as L2.
    pose proof (spa_len _ A) as M1. pose proof (ac_len _ (ms_cpu _ _ _ _ _ MS)) as M2. unfold max_rows in *. apply fzero_feq in F. apply canon_feq in F; unfold canon, P; lia.
  - intros r I. destruct (cpu_sel r I). auto.
  - intros q I. destruct (row_at q I) as (_ & _ & RO & CQ). split; [apply CQ|apply (ro_init _ RO)].
Qed.
Lemma call_starts r : In r cpus -> c_ecall r e_poseidon2 = 1 -> exists q, In q sponge /\ s_init q = 1 /\ s_clk q = c_clk r.
Proof.
  intros I W. destruct (cpu_sel r I) as [_ Cc]. pose proof (calls_count (c_clk r) Cc) as L.
  assert (N : In r (List.filter (fun r' => (c_ecall r' e_poseidon2 =? 1) && (c_clk r' =? c_clk r)) cpus)) by (apply filter_In; split; [exact I|rewrite W, !Z.eqb_refl; reflexivity]).
  destruct (List.filter (fun q => (s_init q =? 1) && (s_clk q =? c_clk r)) sponge) as [|q l] eqn:E; [destruct (List.filter _ cpus); [destruct N|discriminate L]|].
  assert (Iq : In q (List.filter (fun q => (s_init q =? 1) && (s_clk q =? c_clk r)) sponge)) by (rewrite E; left; reflexivity). apply filter_In in Iq as [Iq Q]. apply andb_true_iff in Q as [Q1 Q2]. apply Z.eqb_eq in Q1, Q2. eauto.
Qed.
Lemma start_called q : In q sponge -> s_init q = 1 -> exists r, In r cpus /\ c_ecall r e_poseidon2 = 1 /\ c_clk r = s_clk q.
Proof.
  intros I W. destruct (row_at q I) as (_ & _ & _ & CQ). pose proof (calls_count (s_clk q) (proj1 CQ)) as L.
  assert (N : In q (List.filter (fun x => (s_init x =? 1) && (s_clk x =? s_clk q)) sponge)) by (apply filter_In; split; [exact I|rewrite W, !Z.eqb_refl; reflexivity]).
  destruct (List.filter (fun r => (c_ecall r e_poseidon2 =? 1) && (c_clk r =? s_clk q)) cpus) as [|r l] eqn:E; [destruct (List.filter _ sponge); [destruct N|discriminate L]|].
  assert (Iq : In r (List.filter (fun r => (c_ecall r e_poseidon2 =? 1) && (c_clk r =? s_clk q)) cpus)) by (rewrite E; left; reflexivity). apply filter_In in Iq as [Iq Q]. apply andb_true_iff in Q as [Q1 Q2]. apply Z.eqb_eq in Q1, Q2. eauto.
Qed.
Lemma reduce_le l : reduce_with_powers l 256 = le_value l.
Proof. unfold reduce_with_powers. induction l as [|b l IH]; [reflexivity|]. cbn [fold_right le_value]. rewrite IH. lia. Qed.
(** consecutive addresses that are all addresses of 32 bits do not wrap *)
Lemma no_wrap a n : canon a -> Z.of_nat n < 2 ^ 40 -> (forall k, (k < n)%nat -> u32 ((a + Z.of_nat k) mod P)) -> forall k, (k < n)%nat -> (a + Z.of_nat k) mod P = a + Z.of_nat k /\ u32 (a + Z.of_nat k).
Proof.
  intros Ca Ln H k Hk. pose proof (H 0%nat ltac:(lia)) as H0. rewrite Z.add_0_r, Z.mod_small in H0 by exact Ca. unfold u32 in *. assert (E : (a + Z.of_nat k) mod P = a + Z.of_nat k) by (apply Z.mod_small; unfold P; lia). split; [exact E|]. rewrite <- E. apply H, Hk.
Qed.
Lemma seg_at (f : sprow -> list Z) seg : (forall x, In x seg -> length (f x) = 8%nat) -> forall k b, flat_map f seg !! k = Some b -> exists i j q, k = (8 * i + j)%nat /\ (j < 8)%nat /\ seg !! i = Some q /\ f q !! j = Some b.
Proof.
  induction seg as [|x seg IH]; intros H k b E; [discriminate|]. cbn [flat_map] in E. assert (Lx := H x (or_introl eq_refl)). apply lookup_app_Some in E as [E|[L E]].
  - exists 0%nat, k, x. apply lookup_lt_Some in E as Q. split; [lia|]. split; [lia|]. split; [reflexivity|exact E].
  - destruct (IH ltac:(intros; apply H; right; assumption) _ _ E) as (i & j & q & Ek & Hj & Eq & Ej). exists (S i), j, q. split; [lia|]. auto.
Qed.
Lemma hash_call_sound : sp_chained sponge -> Forall (fun r => q_exe r = 1 -> cubes_ok K r) perm ->
  forall r, In r cpus -> c_ecall r e_poseidon2 = 1 ->
  exists a o msg sp d bytes, call_args sponge (c_clk r) a (Z.of_nat (length msg)) o /\ msg <> [] /\ Forall u8 msg /\
    (forall k b, msg !! k = Some b -> u32 (a + Z.of_nat k) /\ accesses mem (c_clk r) 0 1 (a + Z.of_nat k) b) /\
    sponge_chain (poseidon2_permutation K) msg sp /\ stdpp.list.last sp = Some d /\ encodes_digest bytes (output d) /\
    (forall k b, bytes !! k = Some b -> u32 (o + Z.of_nat k) /\ accesses mem (c_clk r) 1 0 (o + Z.of_nat k) b).
Proof.
  intros CH CB r I W. destruct (call_starts r I W) as (q & Iq & Qi & Qc). destruct (row_at q Iq) as (k0 & Ek & RO & CQ). assert (X : s_executed q = 1) by (destruct (ro_exe _ RO), (ro_perm _ RO); unfold s_executed in *; lia).
  destruct (chain_from sponge A CH _ k0 q eq_refl Ek X) as (seg & E0 & HSeg).
  assert (HI : forall j z, seg !! j = Some z -> In z sponge) by (intros j z E; destruct (HSeg j z E) as (Et & _); eapply lookup_In; eauto).
  assert (HI' : forall z, In z seg -> In z sponge /\ s_executed z = 1 /\ state12 (s_pre z) /\ state12 (s_post z)).
  { intros z Iz. apply In_lookup in Iz as [j E]. destruct (HSeg j z E) as (_ & Xz & _). split; [eapply HI; eauto|]. split; [exact Xz|]. destruct (row_at z (HI j z E)) as (_ & _ & _ & (_ & _ & _ & _ & _ & _ & C7 & C8 & _)). auto. }
  assert (L8 : forall z, In z seg -> length (take 8 (s_pre z)) = 8%nat) by (intros z Iz; destruct (HI' z Iz) as (_ & _ & [L _] & _); rewrite take_length, L; reflexivity).
  assert (NE : seg <> []) by (intros ->; discriminate). destruct (exists_last NE) as (l & z & Es). assert (Ez : seg !! length l = Some z) by (rewrite Es, lookup_app_r, Nat.sub_diag by lia; reflexivity).
  assert (Ls : length seg = S (length l)) by (rewrite Es, app_length; cbn; lia).
  destruct (HSeg _ _ Ez) as (Etz & Xz & Cz & Oz & Gz & _). rewrite Ls, Nat.eqb_refl in Gz.
  assert (Lm : length (seg_msg seg) = (8 * length seg)%nat) by (apply flat_len, L8).
  assert (LT : (length seg <= length sponge)%nat). { apply lookup_lt_Some in Etz. lia. } pose proof (spa_len _ A) as ML. unfold max_rows in ML.
  destruct (HSeg 0%nat q E0) as (_ & _ & _ & _ & _ & _ & _ & Ln). rewrite Z.sub_0_r in Ln.
  (* message bytes *)
  assert (BY : forall k b, seg_msg seg !! k = Some b -> accesses mem (c_clk r) 0 1 ((s_in q + Z.of_nat k) mod P) b /\ u32 ((s_in q + Z.of_nat k) mod P) /\ u8 b).
  { intros k b E. destruct (seg_at _ seg L8 k b E) as (i & j & y & -> & Hj & Ey & Ej). destruct (HSeg i y Ey) as (_ & Xy & Cy & _ & _ & _ & Fy & _). rewrite lookup_take in Ej by exact Hj.
    destruct (block_loads y j (HI i y Ey) Xy Hj) as (B1 & B2 & B3). assert (Eb : at_ (s_pre y) j = b) by (unfold at_; apply nth_lookup_Some; exact Ej). rewrite Eb in *. rewrite Cy, Qc in B1.
    assert (Ea : (s_in y + Z.of_nat j) mod P = (s_in q + Z.of_nat (8 * i + j)) mod P) by (unfold feq in Fy; rewrite Zplus_mod, Fy, <- Zplus_mod; f_equal; lia). rewrite Ea in *. auto. }
  assert (NW : forall k, (k < length (seg_msg seg))%nat -> (s_in q + Z.of_nat k) mod P = s_in q + Z.of_nat k /\ u32 (s_in q + Z.of_nat k)).
  { apply no_wrap; [apply CQ|lia|]. intros k Hk. apply lookup_lt_is_Some in Hk as [b Eb]. apply (BY k b Eb). }
  destruct (out_row z (HI _ _ Ez) Gz) as (w & Iw & Xw & Cw & Aw & Fw). destruct (ob_row_ok w Iw) as (_ & (D1 & D2 & D3 & D4 & D5 & D6 & D7) & Dv).
  assert (NO : forall k, (k < 32)%nat -> (o_addr w + Z.of_nat k) mod P = o_addr w + Z.of_nat k /\ u32 (o_addr w + Z.of_nat k)).
  { apply no_wrap; [exact D3|lia|]. intros k Hk. apply (ob_stores w k Iw Xw Hk). }
  exists (s_in q), (s_out q), (seg_msg seg), (seg_sponge seg), (mkSponge (s_pre z) (s_post z) (s_gen z)), (o_bytes w).
  split; [|split; [|split; [|split; [|split; [|split; [|split]]]]]].
  - unfold call_args, sp_reg_looking. rewrite Lm. replace (Z.of_nat (8 * length seg)) with (s_len q) by lia. rewrite <- Qc. rewrite <- Qi.
    split; [apply in_or_app; left; apply in_map_iff; exists q; auto|]. split; [apply in_or_app; right; apply in_or_app; left; apply in_map_iff; exists q; auto|]. apply in_or_app; right; apply in_or_app; right; apply in_map_iff; exists q; auto.
  - intros Q. rewrite Q in Lm. cbn in Lm. lia.
  - apply List.Forall_forall. intros b Ib. apply In_lookup in Ib as [k E]. apply (BY k b E).
  - intros k b E. assert (Hk : (k < length (seg_msg seg))%nat) by (apply lookup_lt_Some in E; exact E). destruct (NW k Hk) as [N1 N2]. destruct (BY k b E) as (B1 & _). rewrite N1 in B1. auto.
  - split; [unfold seg_sponge; rewrite map_length, Lm; lia|]. intros k d E. unfold seg_sponge in E. rewrite map_lookup in E. destruct (seg !! k) as [y|] eqn:Ey; [|discriminate]. cbn [option_map] in E. injection E as <-. cbn [preimage output gen_output].
    assert (Iy : In y seg) by (eapply lookup_In; eauto). destruct (HI' y Iy) as (Iy' & Xy & Sy & Ty). destruct (HSeg k y Ey) as (Et & _ & _ & _ & Gy & Py & _).
    split; [|split; [apply block_permuted; auto|unfold seg_sponge; rewrite map_length; exact Gy]].
    unfold seg_msg. rewrite (flat_block _ seg L8 k y Ey). rewrite <- (take_drop 8 (s_pre y)) at 1. f_equal. destruct k as [|k].
    + rewrite E0 in Ey. injection Ey as <-. apply drop8_eq; [apply Sy|reflexivity|]. intros j Hj. rewrite (ro_cap _ RO Qi j Hj). unfold at_. symmetry. apply nth_repeat.
    + assert (Hk : (k < length seg)%nat) by (apply lookup_lt_Some in Ey; lia). apply lookup_lt_is_Some in Hk as [x Ex]. unfold seg_sponge. rewrite map_lookup, Ex. cbn [option_map output].
      destruct (HSeg k x Ex) as (Etx & _). replace (k0 + S k)%nat with (S (k0 + k)) in Et by lia. destruct (sp_step sponge A _ x y Etx Et) as (_ & S2 & _). destruct (S2 (Py ltac:(lia))) as [_ Cap].
      apply drop8_eq; [apply Sy|apply (HI' x); eapply lookup_In; eauto|exact Cap].
  - unfold seg_sponge. rewrite Es, map_app. cbn [map]. apply last_snoc.
  - split; [exact D6|]. split.
    + apply List.Forall_forall. intros b Ib. apply In_lookup in Ib as [k E]. assert (Hk : (k < 32)%nat) by (apply lookup_lt_Some in E; lia). destruct (ob_stores w k Iw Xw Hk) as (_ & _ & U). unfold at_ in U. rewrite (nth_lookup_Some _ _ _ _ E) in U. exact U.
    + intros j Hj. cbn [output]. specialize (Dv j Hj). rewrite reduce_le in Dv. rewrite Fw in Dv. unfold feq in Dv. rewrite Dv. unfold at_. destruct (HI' z ltac:(eapply lookup_In; eauto)) as (_ & _ & _ & Tz).
      rewrite <- (take_drop 4 (s_post z)) at 2. rewrite app_nth1 by (rewrite take_length, (proj1 Tz); lia). rewrite Z.mod_small; [reflexivity|]. rewrite <- (app_nth1 (take 4 (s_post z)) (drop 4 (s_post z))) by (rewrite take_length, (proj1 Tz); lia). rewrite take_drop. apply state12_nth, Tz.
  - intros k b E. assert (Hk : (k < 32)%nat) by (apply lookup_lt_Some in E; lia). destruct (NO k Hk) as [N1 N2]. destruct (ob_stores w k Iw Xw Hk) as (B1 & _ & _). unfold at_ in B1. rewrite (nth_lookup_Some _ _ _ _ E) in B1. rewrite N1 in B1. rewrite Cw, Cz, Qc, Aw, Oz in B1. rewrite Aw, Oz in N2. auto.
Qed.
Lemma store_called : sp_chained sponge -> forall w, In w ob -> o_exe w = 1 -> exists r q, In r cpus /\ c_ecall r e_poseidon2 = 1 /\ In q sponge /\ s_init q = 1 /\ c_clk r = o_clk w /\ s_clk q = o_clk w /\ s_out q = o_addr w.
Proof.
  intros CH w I X. destruct (out_back w I X) as (q & Iq & G & Cq & Oq & _). destruct (row_at q Iq) as (k & E & RO & _). assert (Xq : s_executed q = 1).
  { destruct (ro_exe _ RO) as [Q|Q]; [|exact Q]. rewrite (ro_dummy _ RO Q) in G. discriminate. }
  destruct (back_to_init sponge A CH k q E Xq) as (k0 & q0 & _ & E0 & I0 & C0 & O0 & _). assert (Iq0 : In q0 sponge) by (eapply lookup_In; eauto). destruct (start_called q0 Iq0 I0) as (r & Ir & W & Cr). exists r, q0. split; [exact Ir|]. split; [exact W|]. split; [exact Iq0|]. split; [exact I0|]. split; [congruence|]. split; congruence.
Qed.
Lemma load_called : sp_chained sponge -> forall q, In q sponge -> s_executed q = 1 -> exists r q0 n, In r cpus /\ c_ecall r e_poseidon2 = 1 /\ In q0 sponge /\ s_init q0 = 1 /\ c_clk r = s_clk q /\ s_clk q0 = s_clk q /\ feq (s_in q) (s_in q0 + 8 * Z.of_nat n).
Proof.
  intros CH q Iq Xq. destruct (row_at q Iq) as (k & E & RO & _). destruct (back_to_init sponge A CH k q E Xq) as (k0 & q0 & _ & E0 & I0 & C0 & O0 & F0 & _). assert (Iq0 : In q0 sponge) by (eapply lookup_In; eauto).
  destruct (start_called q0 Iq0 I0) as (r & Ir & W & Cr). exists r, q0, (k - k0)%nat. split; [exact Ir|]. split; [exact W|]. split; [exact Iq0|]. split; [exact I0|]. split; [congruence|]. split; [congruence|exact F0].
Qed.
End System.
