(** Proofs about the storage-device tables. *)
From Verif Require Import DeviceSpec ExecProofs TableProofs CpuTrace StateProofs WordProofs StateWitness StepProofs EcallProofs RunProofs CpuProofs CpuGen WordProps.
Open Scope Z_scope.

(** ** Consecutive rows *)
Definition adj {R} (l : list R) : list (R * R) := combine l (tail l).
Lemma windows_adj {R} (x : R) l : windows (x :: l) = adj ((x :: l) ++ [x]).
Proof.
  unfold windows, adj. cbn [tail take app]. change (take 0 l) with (@nil R).
  assert (G : forall (a b : list R) c, length a = length b -> combine (a ++ c) b = combine a b).
  { clear. induction a as [|u a IH]; intros [|v b] c E; cbn in *; try discriminate; [destruct c; reflexivity|]. f_equal. apply IH. congruence. }
  symmetry. change (x :: l ++ [x]) with ((x :: l) ++ [x]). apply (G (x :: l) (l ++ [x]) [x]). rewrite app_length. cbn. lia.
Qed.
Lemma adj_cons {R} (a b : R) l : adj (a :: b :: l) = (a, b) :: adj (b :: l).
Proof. reflexivity. Qed.
Lemma adj_app {R} (l1 : list R) a b l2 : adj ((l1 ++ [a]) ++ b :: l2) = adj (l1 ++ [a]) ++ (a, b) :: adj (b :: l2).
Proof.
  induction l1 as [|x l1 IH]; [reflexivity|]. destruct l1 as [|y l1]; [reflexivity|].
  cbn [app] in *. rewrite !adj_cons, IH. reflexivity.
Qed.
Lemma adj_In_lookup {R} (l : list R) r r' : In (r, r') (adj l) -> exists k, l !! k = Some r /\ l !! S k = Some r'.
Proof.
  induction l as [|x l IH]; [intros []|]. destruct l as [|y l]; [intros []|]. rewrite adj_cons. intros [E|I].
  - injection E as <- <-. exists 0%nat. auto.
  - destruct (IH I) as (k & A & B). exists (S k). auto.
Qed.
Lemma adj_lookup_In {R} (l : list R) k r r' : l !! k = Some r -> l !! S k = Some r' -> In (r, r') (adj l).
Proof.
  revert k. induction l as [|x l IH]; intros k A B; [discriminate|]. destruct l as [|y l]; [destruct k; discriminate|]. rewrite adj_cons.
  destruct k as [|k]; cbn in *; [left; congruence|right; apply (IH k); auto].
Qed.

(** a table whose cyclically consecutive rows all satisfy both kinds of constraints *)
Lemma sat_pairs {R} (A : air R) (x : R) l : (forall r, a_first A r = []) -> (forall r, a_last A r = []) ->
  (forall r r', In (r, r') (adj ((x :: l) ++ [x])) -> all_zero (a_always A r r') /\ all_zero (a_transition A r r')) -> trace_sat A (x :: l).
Proof.
  intros F L H. constructor.
  - discriminate.
  - intros r _. rewrite F. constructor.
  - intros k r r' E E'. apply H. rewrite <- windows_adj. eapply windows_In; eauto.
  - intros k r r' E E'. apply H. eapply (adj_lookup_In _ k); rewrite lookup_app_l; auto.
    + apply lookup_lt_Some in E'. lia.
    + apply lookup_lt_Some in E'. exact E'.
  - intros r _. rewrite L. constructor.
Qed.
Lemma sat_always {R} (A : air R) (x : R) l r r' : trace_sat A (x :: l) -> In (r, r') (adj ((x :: l) ++ [x])) -> all_zero (a_always A r r').
Proof.
  intros ST I. rewrite <- windows_adj in I. apply In_lookup in I as [k E]. unfold windows in E.
  assert (E1 : (x :: l) !! k = Some r /\ (tail (x :: l) ++ take 1 (x :: l)) !! k = Some r').
  { revert E. generalize (tail (x :: l) ++ take 1 (x :: l)). generalize (x :: l). clear. intros t. revert k. induction t as [|a t IH]; intros k [|b u] E; try discriminate.
    destruct k as [|k]; cbn in *; [injection E as <- <-; auto|apply IH, E]. }
  destruct E1 as [E1 E2]. apply (ts_always _ _ ST k r r' E1). cbn [tail take] in E2.
  pose proof (lookup_lt_Some _ _ _ E1) as L. cbn [length] in *. destruct (decide (S k = S (length l))) as [Q|Q].
  - rewrite Q, Nat.mod_same by lia. injection Q as ->. rewrite lookup_app_r in E2 by lia. rewrite Nat.sub_diag in E2. exact E2.
  - rewrite Nat.mod_small by lia. rewrite lookup_app_l in E2 by lia. exact E2.
Qed.

(** ** Padding *)
Lemma next_pow2_pow fuel : forall e n, 0 <= e -> exists j, e <= j /\ next_pow2 fuel (2 ^ e) n = 2 ^ j.
Proof.
  induction fuel as [|f IH]; intros e n E; cbn [next_pow2]; [exists e; split; [lia|reflexivity]|].
  destruct (n <=? 2 ^ e); [exists e; split; [lia|reflexivity]|]. replace (2 * 2 ^ e) with (2 ^ (e + 1)) by (rewrite Z.pow_add_r by lia; lia).
  destruct (IH (e + 1) n) as (j & L & ->); [lia|]. exists j. split; [lia|reflexivity].
Qed.
Lemma next_pow2_exact k : 0 <= k -> forall fuel e, 0 <= e <= k -> k - e <= Z.of_nat fuel -> next_pow2 fuel (2 ^ e) (2 ^ k) = 2 ^ k.
Proof.
  intros Hk. induction fuel as [|f IH]; intros e E L; cbn [next_pow2].
  - f_equal. lia.
  - destruct (Z.leb_spec (2 ^ k) (2 ^ e)) as [Q|Q].
    + apply Z.pow_le_mono_r_iff in Q; try lia. f_equal. lia.
    + replace (2 * 2 ^ e) with (2 ^ (e + 1)) by (rewrite Z.pow_add_r by lia; lia). apply Z.pow_lt_mono_r_iff in Q; try lia. apply IH; lia.
Qed.
Lemma padded_full n : padded_len n = n <-> full_table n.
Proof.
  unfold padded_len, full_table. split.
  - intros E. destruct (next_pow2_pow n 0 (Z.of_nat n)) as (j & L & Q); [lia|]. change (2 ^ 0) with 1 in Q. rewrite Q in E.
    destruct (Z.le_gt_cases 3 j) as [J|J].
    + exists j. split; [exact J|]. assert (2 ^ 3 <= 2 ^ j) by (apply Z.pow_le_mono_r; lia). change (2 ^ 3) with 8 in *. lia.
    + exists 3. split; [lia|]. assert (2 ^ j <= 2 ^ 2) by (apply Z.pow_le_mono_r; lia). change (2 ^ 3) with 8. change (2 ^ 2) with 4 in *. lia.
  - intros (k & K & E). assert (2 ^ 3 <= 2 ^ k) by (apply Z.pow_le_mono_r; lia). change (2 ^ 3) with 8 in *.
    rewrite E. change 1 with (2 ^ 0) at 1. rewrite next_pow2_exact; [lia|lia|lia|]. rewrite E. pose proof (Z.pow_gt_lin_r 2 k ltac:(lia) ltac:(lia)). lia.
Qed.
Lemma next_pow2_ge fuel : forall p n, 0 < p -> n <= p * 2 ^ Z.of_nat fuel -> n <= next_pow2 fuel p n.
Proof.
  induction fuel as [|f IH]; intros p n Hp L; cbn [next_pow2]; [cbn in L; lia|]. destruct (Z.leb_spec n p) as [Q|Q]; [exact Q|].
  apply IH; [lia|]. replace (Z.of_nat (S f)) with (1 + Z.of_nat f) in L by lia. rewrite Z.pow_add_r in L by lia. lia.
Qed.
Lemma padded_ge n : (n <= padded_len n)%nat.
Proof.
  unfold padded_len. pose proof (next_pow2_ge n 1 (Z.of_nat n)). pose proof (Z.pow_gt_lin_r 2 (Z.of_nat n) ltac:(lia) ltac:(lia)). lia.
Qed.

(** ** The read of a step *)
Section WithHash.
Variable permute : list Z -> list Z.
Variable utf8_ok : list Z -> bool.
Notation exec1 := (execute_instruction permute utf8_ok).
Notation step_ok := (step_ok permute utf8_ok).

Lemma data_bound s o : state_ok s -> Z.of_nat (length (take (Z.to_nat (reg s REG_A2)) (available o s))) < 2 ^ 32.
Proof.
  intros OK. assert (U : u32 (reg s REG_A2)) by (apply reg_u32; auto; unfold is_reg, REG_A2; lia). rewrite take_length. unfold u32 in U. lia.
Qed.
Lemma available_u8 s o : state_ok s -> Forall u8 (available o s).
Proof.
  intros OK. unfold available. destruct o; cbn; try apply Forall_drop; try apply OK; auto.
Qed.
(** the storage-device entry of a step is the read its ecall performs *)
Lemma entry_read p s i a : program_ok p -> step_ok p (s, i, a) ->
  storage_device_entry a = match bool_decide (iop i = ECALL), read_call (reg s REG_A0) with
    | true, Some o => Some (mkSd (reg s REG_A1) o (take (Z.to_nat (reg s REG_A2)) (available o s))) | _, _ => None end.
Proof.
  intros PO [OK (s' & X)]. destruct (execute_inv _ _ _ _ _ _ _ OK PO X) as (C & IO & a0 & s0 & D & F & -> & W & E).
  assert (E1 : storage_device_entry a = storage_device_entry a0) by (rewrite E; reflexivity). rewrite E1. clear E E1 X W.
  case_bool_decide as Q.
  - unfold dispatch in D. rewrite Q in D. destruct (read_call (reg s REG_A0)) as [o|] eqn:R.
    + destruct (read_call_ecall permute utf8_ok s o OK R) as [Ho Ee]. rewrite Ee in D.
      destruct (ecall_read_frame s o OK Ho) as [(x & Y)|(data & s1 & EF & FO & Y & _)]; rewrite D in Y; [discriminate|]. injection Y as -> ->. cbn.
      rewrite (fetch_available _ _ _ _ _ Ho FO). reflexivity.
    + rewrite ecall_cases in D by auto. cbv zeta in D. unfold read_call in R.
      destruct (Z.eqb_spec (reg s REG_A0) 0); [injection D as <- <-; reflexivity|].
      repeat match type of D with (if ?c then ecall_read _ _ else _) = _ => destruct c; [discriminate R|] end.
      destruct (_ =? 1); [destruct (ecall_panic_not_ok _ _ _ D)|].
      destruct (_ =? 3). { destruct (ecall_poseidon2_frame permute s OK) as [(q & Y)|(h & sp & _ & _ & Y & _)]; rewrite D in Y; [discriminate|]. injection Y as -> ->. reflexivity. }
      destruct (_ =? 10); [apply ecall_trace_log_ok in D as [-> _]; reflexivity|injection D as <- <-; reflexivity].
  - destruct IO as (H0 & H1 & H2 & HI). unfold dispatch in D. destruct (iop i) eqn:OP; try congruence;
      try (unfold register_op in D; rewrite !get_reg_ok in D by auto; cbn [rbind] in D; rewrite set_reg_ok in D by auto; cbn [rbind] in D; injection D as <- <-; reflexivity);
      try (unfold branch_op in D; rewrite !get_reg_ok in D by auto; cbn [rbind] in D; injection D as <- <-; reflexivity);
      try (unfold jalr in D; rewrite !get_reg_ok in D by auto; cbn [rbind] in D; destruct (set_reg _ _ _); cbn [rbind] in D; try discriminate; injection D as <- <-; reflexivity);
      try (unfold store in D; rewrite !get_reg_ok in D by auto; cbn [rbind] in D; destruct (store_bytes _ _); cbn [rbind] in D; try discriminate; injection D as <- <-; reflexivity);
      try (unfold memory_load in D; rewrite !get_reg_ok in D by auto; cbn [rbind] in D;
           match type of D with (let '(_, _) := ?f ?l in _) = _ => destruct (f l) end; rewrite set_reg_ok in D by auto; cbn [rbind] in D; injection D as <- <-; reflexivity).
Qed.
Lemma sd_entry_read p o x : program_ok p -> step_ok p x -> o <> SdNone ->
  sd_entry_of o x = option_map (fun '(c, a, d) => (c mod P, a, d)) (tape_read o x).
Proof.
  intros PO ST Ho. destruct x as [[s i] a]. unfold sd_entry_of, tape_read. rewrite (entry_read p s i a PO ST).
  case_bool_decide as Q; [|reflexivity]. destruct (read_call (reg s REG_A0)) as [o'|] eqn:R; [|rewrite bool_decide_eq_false_2 by discriminate; reflexivity].
  cbn [sd_opcode sd_addr sd_data]. destruct (decide (o' = o)) as [->|N].
  - rewrite !bool_decide_eq_true_2 by auto. reflexivity.
  - rewrite !bool_decide_eq_false_2 by congruence. reflexivity.
Qed.
Definition modc (x : Z * Z * list Z) : Z * Z * list Z := let '(c, a, d) := x in (c mod P, a, d).
Lemma entries_reads p o rows : program_ok p -> Forall (step_ok p) rows -> o <> SdNone -> omap (sd_entry_of o) rows = map modc (tape_reads o rows).
Proof.
  intros PO F Ho. induction F as [|x l H F IH]; [reflexivity|]. unfold tape_reads in *. cbn. rewrite (sd_entry_read p o x PO H Ho).
  destruct (tape_read o x) as [[[c a] d]|]; cbn; rewrite IH; reflexivity.
Qed.
(** bounds on what a step reads *)
Definition read_ok (x : Z * Z * list Z) : Prop := let '(c, a, d) := x in u32 a /\ Forall u8 d /\ Z.of_nat (length d) < 2 ^ 32.
Lemma reads_ok p o rows : Forall (step_ok p) rows -> Forall read_ok (tape_reads o rows).
Proof.
  intros F. induction F as [|[[s i] a] l H F IH]; [constructor|]. unfold tape_reads. cbn. destruct (_ && _); cbn; [|exact IH].
  constructor; [|exact IH]. destruct H as [OK _]. split; [apply reg_u32; auto; unfold is_reg, REG_A1; lia|]. split; [apply Forall_take, available_u8, OK|apply data_bound, OK].
Qed.
End WithHash.

(** ** The constraints on generated rows *)
Definition okp (r r' : sdrow) : Prop := all_zero (a_always sd_air r r') /\ all_zero (a_transition sd_air r r').
Lemma combine_seq_lookup {A} (l : list A) : forall b k, combine (seq b (length l)) l !! k = option_map (fun v => ((b + k)%nat, v)) (l !! k).
Proof.
  induction l as [|x l IH]; intros b k; [reflexivity|]. destruct k as [|k]; cbn; [rewrite Nat.add_0_r; reflexivity|]. rewrite IH.
  replace (S b + k)%nat with (b + S k)%nat by lia. reflexivity.
Qed.
Lemma map_lookup {A B} (f : A -> B) l k : map f l !! k = option_map f (l !! k).
Proof. revert k. induction l as [|x l IH]; intros [|k]; cbn; auto. Qed.
Definition sd_byte_row (c a : Z) (d : list Z) (i : nat) (v : Z) : sdrow :=
  mkSdRow c (wadd a (Z.of_nat i)) (Z.of_nat (length d) - Z.of_nat i - 1) v 1 0 (b2z (negb (S i =? length d)%nat)).
Definition sd_call_row (c a : Z) (d : list Z) : sdrow := mkSdRow c a (Z.of_nat (length d)) 0 0 1 0.
Lemma gen_sd_lookup c a d k : gen_sd_rows c a d !! S k = option_map (sd_byte_row c a d k) (d !! k).
Proof. unfold gen_sd_rows. etransitivity; [apply map_lookup|]. rewrite combine_seq_lookup. destruct (d !! k); reflexivity. Qed.
Lemma fz0 : fzero 0. Proof. reflexivity. Qed.
Ltac zeros := unfold okp, all_zero, sd_air, is_binary, d_executed; cbn [a_always a_transition d_clk d_addr d_size d_value d_store d_dev d_both sd_byte_row sd_call_row sd_default]; repeat (split || constructor).
Lemma fz_eq x : x = 0 -> fzero x. Proof. intros ->. reflexivity. Qed.
Lemma wadd_step a i : u32 a -> 0 <= i -> wadd a (i + 1) = wadd a i + 1 \/ wadd a (i + 1) = wadd a i + 1 - 2 ^ 32.
Proof.
  intros _ Hi. change (wadd a (i + 1)) with ((a + (i + 1)) mod 2 ^ 32). change (wadd a i) with ((a + i) mod 2 ^ 32). pose proof (Z.mod_pos_bound (a + i) (2 ^ 32) ltac:(lia)).
  replace (a + (i + 1)) with ((a + i) + 1) by lia. rewrite <- Zplus_mod_idemp_l.
  destruct (Z.eq_dec ((a + i) mod 2 ^ 32 + 1) (2 ^ 32)) as [E|N]; [right; rewrite E, Z.mod_same by lia; lia|left; apply Z.mod_small; lia].
Qed.
Lemma block_inner c a d r r' : u32 a -> In (r, r') (adj (gen_sd_rows c a d)) -> okp r r'.
Proof.
  intros Ha I. apply adj_In_lookup in I as (k & E & E'). rewrite gen_sd_lookup in E'. destruct (d !! k) as [v|] eqn:Dk; [|discriminate]. injection E' as <-.
  pose proof (lookup_lt_Some _ _ _ Dk) as Lk. destruct k as [|k].
  - injection E as <-. change (mkSdRow c a (Z.of_nat (length d)) 0 0 1 0) with (sd_call_row c a d).
    assert (A0 : wadd a 0 = a) by (apply wadd_0_r; exact Ha).
    unfold sd_byte_row. change (Z.of_nat 0) with 0. rewrite A0. destruct (1 =? length d)%nat eqn:Q; [apply Nat.eqb_eq in Q|apply Nat.eqb_neq in Q]; cbn [negb b2z]; zeros; apply fz_eq; try ring; try nia.
  - rewrite gen_sd_lookup in E. destruct (d !! k) as [w|] eqn:Dk'; [|discriminate]. injection E as <-. unfold sd_byte_row.
    assert (Q : (S k =? length d)%nat = false) by (apply Nat.eqb_neq; lia). rewrite Q. cbn [negb b2z].
    pose proof (wadd_step a (Z.of_nat k) Ha ltac:(lia)) as WS. replace (Z.of_nat (S k)) with (Z.of_nat k + 1) by lia.
    destruct (S (S k) =? length d)%nat eqn:Q2; [apply Nat.eqb_eq in Q2|apply Nat.eqb_neq in Q2]; cbn [negb b2z]; zeros; apply fz_eq; try ring; destruct WS as [-> | ->]; ring.
Qed.
(** rows that can begin and end a block *)
Record start_row (r : sdrow) : Prop := { sr_both : d_both r = 0; sr_size : 0 <= d_size r < 2 ^ 32 }.
Record end_row (r : sdrow) : Prop := { er_both : d_both r = 0; er_size : d_size r = 0; er_store : bit (d_store r); er_dev : bit (d_dev r); er_exe : bit (d_executed r) }.
Lemma bin_bit x : bit x -> fzero (is_binary x).
Proof. intros [-> | ->]; reflexivity. Qed.
Lemma boundary r r' : end_row r -> start_row r' -> (d_dev r = 1 -> d_size r' = 0) -> okp r r'.
Proof.
  intros [B0 S0 St Dv Ex] [B1 S1] H. unfold okp, all_zero, sd_air. cbn [a_always a_transition]. rewrite B0, S0, B1.
  assert (Q : d_dev r * d_size r' = 0) by (destruct Dv as [-> | D]; [lia|rewrite D, H by exact D; lia]).
  split; repeat constructor; auto using bin_bit; apply fz_eq; try ring. rewrite Q. ring.
Qed.
Lemma boundary_inv r r' : end_row r -> start_row r' -> all_zero (a_always sd_air r r') -> d_dev r = 1 -> d_size r' = 0.
Proof.
  intros ER [B1 S1] AZ D. unfold all_zero, sd_air in AZ. cbn [a_always] in AZ. inversion_clear AZ as [|? ? _ A1]. inversion_clear A1 as [|? ? _ A2].
  inversion_clear A2 as [|? ? _ A3]. inversion_clear A3 as [|? ? _ A4]. inversion_clear A4 as [|? ? _ A5]. inversion_clear A5 as [|? ? Q _].
  rewrite D, B1 in Q. unfold fzero in Q. replace (1 * d_size r' * (0 - 1)) with (- d_size r') in Q by ring. apply Z.mod_opp_l_z in Q; [|unfold P; lia].
  rewrite Z.opp_involutive in Q. rewrite Z.mod_small in Q; [exact Q|unfold P; lia].
Qed.
Lemma block_shape c a d : read_ok (c, a, d) -> exists l e, gen_sd_rows c a d = l ++ [e] /\ end_row e /\ (d_dev e = 1 <-> d = []).
Proof.
  intros (Ha & _ & Hn). destruct d as [|v d'] using rev_ind.
  - exists [], (sd_call_row c a []). split; [reflexivity|]. split; [repeat split; cbn; unfold bit; auto; cbn; lia|]. cbn. tauto.
  - clear IHd'. set (d := d' ++ [v]). assert (Ld : length d = S (length d')) by (unfold d; rewrite app_length; cbn; lia).
    assert (E : gen_sd_rows c a d !! S (length d') = Some (sd_byte_row c a d (length d') v)).
    { rewrite gen_sd_lookup. assert (Dl : d !! length d' = Some v) by (unfold d; apply list_lookup_middle; reflexivity). rewrite Dl. reflexivity. }
    assert (Lg : length (gen_sd_rows c a d) = S (S (length d'))). { unfold gen_sd_rows. cbn [length]. rewrite map_length, combine_length, seq_length. lia. }
    exists (take (S (length d')) (gen_sd_rows c a d)), (sd_byte_row c a d (length d') v). split.
    + apply take_S_r in E. rewrite <- E. symmetry. apply take_ge. lia.
    + unfold sd_byte_row. rewrite Ld, Nat.eqb_refl. cbn [negb b2z]. split.
      * constructor; cbn; try (unfold bit, d_executed; cbn; auto; fail); lia.
      * cbn. split; [discriminate|]. intros Q. unfold d in Q. destruct d'; discriminate.
Qed.
Lemma start_call c a d : read_ok (c, a, d) -> start_row (sd_call_row c a d).
Proof. intros (_ & _ & H). constructor; cbn; [reflexivity|lia]. Qed.
Lemma start_default : start_row sd_default. Proof. constructor; cbn; lia. Qed.
Lemma end_default : end_row sd_default. Proof. repeat split; cbn; unfold bit, d_executed; cbn; auto. Qed.
(** consecutive reads, the last one followed by a row of size [n] *)
Fixpoint linked (reads : list (Z * Z * list Z)) (n : Z) : Prop :=
  match reads with
  | [] => True
  | (_, _, d) :: tl => (d = [] -> match tl with [] => n = 0 | (_, _, d') :: _ => d' = [] end) /\ linked tl n
  end.
Definition blocks (reads : list (Z * Z * list Z)) : list sdrow := flat_map (fun '(c, a, d) => gen_sd_rows c a d) reads.
Definition head_size (reads : list (Z * Z * list Z)) (n : Z) : Z := match reads with [] => n | (_, _, d) :: _ => Z.of_nat (length d) end.
Lemma blocks_head reads y suf : Forall read_ok reads -> start_row y -> exists h t, blocks reads ++ y :: suf = h :: t /\ start_row h /\ d_size h = head_size reads (d_size y).
Proof.
  intros F Y. destruct F as [|[[c a] d] l H F]; [exists y, suf; auto|]. cbn. eexists _, _. split; [reflexivity|]. split; [apply (start_call c a d H)|reflexivity].
Qed.
Lemma chain reads : forall y suf, Forall read_ok reads -> start_row y -> (forall r r', In (r, r') (adj (y :: suf)) -> okp r r') ->
  linked reads (d_size y) -> forall r r', In (r, r') (adj (blocks reads ++ y :: suf)) -> okp r r'.
Proof.
  induction reads as [|[[c a] d] l IH]; intros y suf F Y A L r r' I; [apply A, I|]. apply Forall_cons_iff in F as [H F]. destruct L as [L0 L].
  destruct (block_shape c a d H) as (b & e & Eb & ER & De). destruct (blocks_head l y suf F Y) as (h & t & Et & Hh & Sh).
  unfold blocks in I. cbn [flat_map] in I. rewrite <- app_assoc in I. fold (blocks l) in I. rewrite Et, Eb, adj_app in I. apply in_app_iff in I as [I|[I|I]].
  - rewrite <- Eb in I. apply (block_inner c a d); auto. apply H.
  - injection I as <- <-. apply boundary; auto. intros D1. rewrite Sh. apply De in D1. specialize (L0 D1). destruct l as [|[[? ?] d'] l]; [exact L0|]. subst d'. reflexivity.
  - rewrite <- Et in I. apply (IH y suf F Y A L). exact I.
Qed.
Lemma chain_inv reads : forall y suf, Forall read_ok reads -> start_row y ->
  (forall r r', In (r, r') (adj (blocks reads ++ y :: suf)) -> all_zero (a_always sd_air r r')) -> linked reads (d_size y).
Proof.
  induction reads as [|[[c a] d] l IH]; intros y suf F Y A; [exact I|]. apply Forall_cons_iff in F as [H F].
  destruct (block_shape c a d H) as (b & e & Eb & ER & De). destruct (blocks_head l y suf F Y) as (h & t & Et & Hh & Sh).
  unfold blocks in A. cbn [flat_map] in A. rewrite <- app_assoc in A. fold (blocks l) in A. rewrite Et, Eb, adj_app in A. split.
  - intros D. apply De in D. pose proof (boundary_inv e h ER Hh (A e h ltac:(apply in_app_iff; right; left; reflexivity)) D) as Q. rewrite Sh in Q.
    destruct l as [|[[? ?] d'] l]; [exact Q|]. cbn in Q. destruct d'; [reflexivity|cbn in Q; lia].
  - apply (IH y suf F Y). intros r r' I. apply A. rewrite <- Et. apply in_app_iff. right. right. exact I.
Qed.
Lemma linked_spec reads n : linked reads n <->
  (forall k c a d c' a' d', reads !! k = Some (c, a, d) -> reads !! S k = Some (c', a', d') -> d = [] -> d' = []) /\
  (forall c a d, stdpp.list.last reads = Some (c, a, d) -> d = [] -> n = 0).
Proof.
  induction reads as [|[[c a] d] l IH]; [split; [intros _; split; intros; discriminate|intros; exact I]|]. cbn [linked]. rewrite IH. clear IH. split.
  - intros (A & B & C). split.
    + intros [|k] c0 a0 d0 c1 a1 d1 E0 E1 D0; [|apply (B k _ _ _ _ _ _ E0 E1 D0)]. cbn in E0. injection E0 as <- <- <-. specialize (A D0). destruct l as [|[[? ?] ?] ?]; [discriminate|]. cbn in E1. injection E1 as <- <- <-. exact A.
    + intros c0 a0 d0 E D0. destruct l as [|[[? ?] ?] ?]; [cbn in E; injection E as <- <- <-; apply A, D0|]. rewrite last_cons_cons in E. apply (C _ _ _ E D0).
  - intros (A & B). split; [|split].
    + intros D0. destruct l as [|[[? ?] d'] ?]; [apply (B _ _ _ eq_refl D0)|]. apply (A 0%nat _ _ _ _ _ _ eq_refl eq_refl D0).
    + intros k. apply (A (S k)).
    + intros c0 a0 d0 E. apply (B c0 a0 d0). destruct l; [discriminate|]. rewrite last_cons_cons. exact E.
Qed.
Lemma adj_pad m x r r' : start_row x -> In (r, r') (adj (sd_default :: repeat sd_default m ++ [x])) -> okp r r'.
Proof.
  intros X. induction m as [|m IH]; cbn [repeat app]; rewrite adj_cons; intros [E|I].
  - injection E as <- <-. apply boundary; auto using end_default. discriminate.
  - destruct I.
  - injection E as <- <-. apply boundary; auto using end_default, start_default.
  - apply IH, I.
Qed.
Lemma blocks_length reads : length (blocks reads) = rows_needed reads.
Proof.
  unfold blocks, rows_needed. induction reads as [|[[c a] d] l IH]; [reflexivity|]. cbn [flat_map map sum_list sum_list_with foldr]. rewrite app_length, IH. cbn. rewrite map_length, combine_length, seq_length. unfold sum_list. cbn. lia.
Qed.
Lemma pad_blocks_sat reads : Forall read_ok reads -> trace_sat sd_air (pad_with sd_default (blocks reads)) <-> no_stall reads.
Proof.
  intros F. unfold pad_with, no_stall. rewrite blocks_length.
  destruct (decide (padded_len (rows_needed reads) = rows_needed reads)) as [Q|Q].
  - rewrite Q, Nat.sub_diag. cbn [repeat]. rewrite app_nil_r. assert (FT : full_table (rows_needed reads)) by (apply padded_full; exact Q).
    destruct reads as [|[[c a] d] l]; [exfalso; apply padded_full in FT; vm_compute in FT; discriminate|].
    set (reads := (c, a, d) :: l) in *. assert (BH : exists tl, blocks reads = sd_call_row c a d :: tl) by (eexists; reflexivity). destruct BH as [tl BH].
    assert (X : start_row (sd_call_row c a d)) by (apply start_call; inversion F; auto).
    transitivity (linked reads (d_size (sd_call_row c a d))).
    + split.
      * intros ST. apply (chain_inv reads _ [] F X). intros r r' I. rewrite BH in *. apply (sat_always _ _ _ _ _ ST I).
      * intros L. pose proof (chain reads (sd_call_row c a d) [] F X ltac:(intros ? ? []) L) as CH. rewrite BH in *. apply sat_pairs; auto.
    + rewrite linked_spec. cbn [d_size sd_call_row]. split; intros [A B]; (split; [exact A|]).
      * intros _ c0 a0 d0 c' a' d' E0 E1 D0. cbn in E1. injection E1 as <- <- <-. specialize (B _ _ _ E0 D0). destruct d; [reflexivity|cbn in B; lia].
      * intros c0 a0 d0 E0 D0. specialize (B FT _ _ _ _ _ _ E0 eq_refl D0). subst d. reflexivity.
  - assert (NF : ~ full_table (rows_needed reads)) by (intros FT; apply Q, padded_full, FT).
    pose proof (padded_ge (rows_needed reads)). destruct (padded_len (rows_needed reads) - rows_needed reads)%nat as [|m] eqn:Em; [lia|]. cbn [repeat].
    destruct (blocks_head reads sd_default (repeat sd_default m) F start_default) as (h & t & Eh & Hh & _).
    assert (Et : (h :: t) ++ [h] = blocks reads ++ sd_default :: (repeat sd_default m ++ [h])) by (rewrite <- Eh, <- app_assoc; reflexivity).
    transitivity (linked reads 0).
    + rewrite Eh. split.
      * intros ST. apply (chain_inv reads sd_default (repeat sd_default m ++ [h]) F start_default). rewrite <- Et. intros r r' I. apply (sat_always _ _ _ _ _ ST I).
      * intros L. apply sat_pairs; auto. rewrite Et. apply (chain reads sd_default _ F start_default); [|exact L]. intros r r'. apply adj_pad, Hh.
    + rewrite linked_spec. split; intros [A B]; (split; [exact A|]); [intros FT; destruct (NF FT)|reflexivity].
Qed.

(** ** Lookups of the generated tables *)
Lemma mult_flat_map {A} v (f : A -> entries) l : mult_of v (flat_map f l) = sumZ (map (fun x => mult_of v (f x)) l).
Proof. induction l as [|x l IH]; [reflexivity|]. cbn [flat_map map]. rewrite mult_of_app, IH, sumZ_cons. reflexivity. Qed.
Lemma sumZ_add {A} (f g : A -> Z) l : sumZ (map f l) + sumZ (map g l) = sumZ (map (fun x => f x + g x) l).
Proof. induction l as [|x l IH]; [reflexivity|]. cbn [map]. rewrite !sumZ_cons, <- IH. lia. Qed.
Lemma sumZ_zero {A} (f : A -> Z) l : (forall x, In x l -> f x = 0) -> sumZ (map f l) = 0.
Proof. induction l as [|x l IH]; intros H; [reflexivity|]. cbn [map]. rewrite sumZ_cons, (H x (or_introl eq_refl)), IH; auto. intros; apply H; right; auto. Qed.
(** a lookup of a table of reads, read by read *)
Lemma mult_table v (f : sdrow -> list Z) (g : sdrow -> Z) reads : g sd_default = 0 ->
  mult_of v (map (fun r => (f r, g r)) (pad_with sd_default (blocks reads))) =
  sumZ (map (fun '(c, a, d) => mult_of v (map (fun r => (f r, g r)) (gen_sd_rows c a d))) reads).
Proof.
  intros G. unfold pad_with. rewrite map_app, mult_of_app, (mult_of_zero v (map _ (repeat _ _))).
  2:{ intros e I. apply in_map_iff in I as (q & <- & I). apply repeat_spec in I. subst q. exact G. }
  rewrite Z.add_0_r. unfold blocks. induction reads as [|[[c a] d] l IH]; [reflexivity|]. cbn [flat_map map]. rewrite map_app, mult_of_app, IH, sumZ_cons. reflexivity.
Qed.
Lemma mult_omap {A B} v (h : A -> option B) (f : B -> entries) l :
  sumZ (map (fun y => mult_of v (f y)) (omap h l)) = sumZ (map (fun x => match h x with Some y => mult_of v (f y) | None => 0 end) l).
Proof.
  induction l as [|x l IH]; [reflexivity|]. change (omap h (x :: l)) with (match h x with Some y => y :: omap h l | None => omap h l end).
  cbn [map]. rewrite sumZ_cons. destruct (h x); cbn [map]; rewrite ?sumZ_cons, IH; reflexivity.
Qed.

Section Generated.
Variable permute : list Z -> list Z.
Variable utf8_ok : list Z -> bool.
Notation step_ok := (step_ok permute utf8_ok).
Lemma generated_blocks p o rows : program_ok p -> Forall (step_ok p) rows -> o <> SdNone ->
  generate_sd_trace o rows = pad_with sd_default (blocks (map modc (tape_reads o rows))).
Proof. intros PO F Ho. unfold generate_sd_trace. rewrite (entries_reads permute utf8_ok p o rows PO F Ho). reflexivity. Qed.
Lemma read_ok_modc l : Forall read_ok l -> Forall read_ok (map modc l).
Proof. intros F. apply List.Forall_forall. intros x I. apply in_map_iff in I as ([[c a] d] & <- & I). rewrite List.Forall_forall in F. apply (F _ I). Qed.
Lemma last_map {A B} (f : A -> B) l : stdpp.list.last (map f l) = option_map f (stdpp.list.last l).
Proof. induction l as [|x [|y l] IH]; auto. Qed.
Lemma no_stall_modc reads : no_stall (map modc reads) <-> no_stall reads.
Proof.
  assert (RN : rows_needed (map modc reads) = rows_needed reads).
  { unfold rows_needed. f_equal. rewrite map_map. apply map_ext. intros [[c a] d]. reflexivity. }
  unfold no_stall. rewrite RN. split; intros [A B].
  - split.
    + intros k c a d c' a' d' E E'. apply (A k (c mod P) a d (c' mod P) a' d'); rewrite map_lookup, ?E, ?E'; reflexivity.
    + intros FT c a d c' a' d' E E'. apply (B FT (c mod P) a d (c' mod P) a' d'); [rewrite last_map, E|rewrite map_lookup, E']; reflexivity.
  - split.
    + intros k c a d c' a' d'. rewrite !map_lookup. destruct (reads !! k) as [[[c0 a0] d0]|] eqn:E; [|discriminate]. destruct (reads !! S k) as [[[c1 a1] d1]|] eqn:E'; [|discriminate].
      cbn. intros Q Q'. injection Q as <- <- <-. injection Q' as <- <- <-. apply (A k _ _ _ _ _ _ E E').
    + intros FT c a d c' a' d'. rewrite last_map, map_lookup. destruct (stdpp.list.last reads) as [[[c0 a0] d0]|] eqn:E; [|discriminate]. destruct (reads !! 0%nat) as [[[c1 a1] d1]|] eqn:E'; [|discriminate].
      cbn. intros Q Q'. injection Q as <- <- <-. injection Q' as <- <- <-. apply (B FT _ _ _ _ _ _ eq_refl eq_refl).
Qed.
Lemma generated_sat p o rows : program_ok p -> Forall (step_ok p) rows -> o <> SdNone ->
  trace_sat sd_air (generate_sd_trace o rows) <-> no_stall (tape_reads o rows).
Proof.
  intros PO F Ho. rewrite (generated_blocks p o rows PO F Ho), pad_blocks_sat by (apply read_ok_modc, (reads_ok permute utf8_ok p o rows F)). apply no_stall_modc.
Qed.
(** the part of a lookup due to one read *)
Lemma call_mult v (f : sdrow -> list Z) c a d : mult_of v (map (fun r => (f r, d_dev r)) (gen_sd_rows c a d)) = if decide (tuple_key (f (sd_call_row c a d)) = tuple_key v) then 1 else 0.
Proof.
  unfold gen_sd_rows. cbn [map]. rewrite mult_of_cons. rewrite (mult_of_zero v (map _ (map _ _))).
  - rewrite Z.add_0_r. reflexivity.
  - intros e I. apply in_map_iff in I as (r & <- & I). apply in_map_iff in I as ([i x] & <- & _). reflexivity.
Qed.
Lemma tape_mult p v o rows (f : sdrow -> list Z) g : program_ok p -> Forall (step_ok p) rows -> o <> SdNone -> g sd_default = 0 ->
  mult_of v (map (fun r => (f r, g r)) (generate_sd_trace o rows)) =
  sumZ (map (fun x => match tape_read o x with Some (c, a, d) => mult_of v (map (fun r => (f r, g r)) (gen_sd_rows (c mod P) a d)) | None => 0 end) rows).
Proof.
  intros PO F Ho G. rewrite (generated_blocks p o rows PO F Ho), mult_table by exact G. rewrite map_map. unfold tape_reads.
  rewrite (sumZ_ext _ (fun y => mult_of v ((fun '(c, a, d) => map (fun r => (f r, g r)) (gen_sd_rows (c mod P) a d)) y))) by (intros [[? ?] ?] _; reflexivity).
  rewrite mult_omap. apply sumZ_ext. intros x _. destruct (tape_read o x) as [[[? ?] ?]|]; reflexivity.
Qed.
Lemma key_mod k c a n : tuple_key [k; c mod P; a; n] = tuple_key [k; c; a; n].
Proof. unfold tuple_key. cbn [map]. rewrite Z.mod_mod by (unfold P; lia). reflexivity. Qed.
Lemma generated_cpu p rows : program_ok p -> Forall (step_ok p) rows ->
  forall v, mult_of v (all_sd_cpu_looking (fun o => generate_sd_trace o rows)) = mult_of v (cpu_sd_looked (generate_cpu_trace rows)).
Proof.
  intros PO F v. unfold all_sd_cpu_looking. rewrite mult_flat_map. cbn [tape_order combine seq map]. unfold sd_cpu_looking.
  rewrite !(tape_mult p v _ rows _ _ PO F) by (try reflexivity; discriminate).
  unfold cpu_sd_looked, generate_cpu_trace, pad_with. rewrite map_app, mult_of_app, (mult_of_zero v (map _ (repeat _ _))).
  2:{ intros e I. apply in_map_iff in I as (q & <- & I). apply repeat_spec in I. subst q. reflexivity. }
  rewrite Z.add_0_r, map_map. rewrite mult_map. rewrite (sumZ_filter _ (fun x : state * instruction * aux => _)).
  - rewrite !sumZ_cons. change (sumZ []) with 0. rewrite Z.add_0_r. rewrite !sumZ_add. apply sumZ_ext. intros [[s i] a] I.
    rewrite List.Forall_forall in F. pose proof (entry_read permute utf8_ok p s i a PO (F _ I)) as ER.
    rewrite gr_ecall, gr_clk, gr_ioa, gr_ios. unfold gen_ecall, storage_sels, tape_read. cbn [map]. rewrite ER.
    case_bool_decide as Q; cbn [andb].
    + destruct (read_call (reg s REG_A0)) as [o|] eqn:R.
      * cbn [sd_opcode sd_addr sd_data]. destruct o; try (exfalso; unfold read_call in R; repeat (case_match; try discriminate); fail);
          repeat first [rewrite (bool_decide_eq_true_2 (_ = _)) by reflexivity | rewrite (bool_decide_eq_false_2 (_ = _)) by discriminate]; cbn [b2z];
          rewrite call_mult; cbn [sd_call_row d_clk d_addr d_size]; rewrite ?Z.add_0_r, ?Z.add_0_l; reflexivity.
      * repeat (rewrite (bool_decide_eq_false_2 (_ = _)) by discriminate). cbn [b2z]. cbn -[P tuple_key]. destruct (decide _); reflexivity.
    + cbn [b2z]. cbn -[P tuple_key]. destruct (decide _); reflexivity.
  - intros [[s i] a] _ Q. apply negb_false_iff in Q. assert (N : iop i <> ECALL) by (unfold handled_elsewhere in Q; destruct (iop i); discriminate).
    rewrite gr_ecall. unfold gen_ecall, storage_sels. cbn [map]. rewrite !(bool_decide_eq_false_2 (iop i = ECALL)) by exact N. cbn [andb b2z].
    change (sumZ [0; 0; 0; 0; 0; 0; 0]) with 0. destruct (decide _); reflexivity.
Qed.
(** memory entries of a read *)
Lemma bytes_mult v c a d : mult_of v (map (fun r => ([d_clk r; d_store r; 0; d_addr r; d_value r], d_store r)) (gen_sd_rows (c mod P) a d)) = mult_of v (bytes_stored (c, a, d)).
Proof.
  unfold gen_sd_rows, bytes_stored. cbn [map]. rewrite mult_of_cons. cbn [d_store]. replace (if decide _ then 0 else 0) with 0 by (destruct (decide _); reflexivity).
  rewrite Z.add_0_l, map_map. generalize (combine (seq 0 (length d)) d). intros l. induction l as [|[k b] l IH]; [reflexivity|]. cbn [map]. rewrite !mult_of_cons, IH. f_equal.
  cbn [d_clk d_store d_addr d_value]. unfold tuple_key. cbn [map]. rewrite Z.mod_mod by (unfold P; lia). reflexivity.
Qed.
Lemma generated_mem p rows : program_ok p -> Forall (step_ok p) rows ->
  forall v, mult_of v (all_sd_mem_looking (fun o => generate_sd_trace o rows)) = mult_of v (flat_map (fun o => flat_map bytes_stored (tape_reads o rows)) tape_order).
Proof.
  intros PO F v. unfold all_sd_mem_looking. rewrite !mult_flat_map. apply sumZ_ext. intros o I.
  assert (Ho : o <> SdNone) by (cbn in I; intuition congruence). unfold sd_mem_looking. rewrite (tape_mult p v o rows _ _ PO F Ho) by reflexivity.
  rewrite mult_flat_map. unfold tape_reads. rewrite mult_omap. apply sumZ_ext. intros x _. destruct (tape_read o x) as [[[c a] d]|]; [apply bytes_mult|reflexivity].
Qed.
Lemma generated_regs p rows : program_ok p -> Forall (step_ok p) rows ->
  forall v, mult_of v (all_sd_reg_looking (fun o => generate_sd_trace o rows)) =
    mult_of v (flat_map (fun o => map (fun '(c, a, _) => ([c; 1; 11; a], 1)) (tape_reads o rows)) (List.filter (fun o => negb (bool_decide (o = StoreEventTape))) tape_order)).
Proof.
  intros PO F v. unfold all_sd_reg_looking. rewrite !mult_flat_map.
  change (List.filter (fun o => negb (bool_decide (o = StoreEventTape))) tape_order) with [StorePrivate; StorePublic; StoreCallTape; StoreEventsCommitmentTape; StoreCastListCommitmentTape; StoreSelfProgIdTape].
  apply sumZ_ext. intros o I.
  assert (Ho : o <> SdNone) by (cbn in I; intuition congruence). unfold sd_reg_looking. rewrite (tape_mult p v o rows _ _ PO F Ho) by reflexivity.
  unfold tape_reads. rewrite (map_ext _ (fun x : Z * Z * list Z => ((fun '(c, a, _) => [c; 1; 11; a]) x, 1))) by (intros [[? ?] ?]; reflexivity).
  induction rows as [|x l IH]; [reflexivity|]. inversion F; subst.
  change (omap (tape_read o) (x :: l)) with (match tape_read o x with Some y => y :: omap (tape_read o) l | None => omap (tape_read o) l end).
  cbn [map]. rewrite sumZ_cons, IH by auto. destruct (tape_read o x) as [[[c a] d]|]; cbn [map]; [|reflexivity]. rewrite mult_of_cons. f_equal. rewrite call_mult. cbn [sd_call_row d_clk d_addr].
  unfold tuple_key. cbn [map]. rewrite Z.mod_mod by (unfold P; lia). reflexivity.
Qed.
End Generated.

(** ** Soundness *)
Ltac inv_all H := repeat match type of H with Forall _ (_ :: _) => let H' := fresh H "c" in inversion_clear H as [|? ? H' H0]; rename H0 into H end.
Lemma canon_sub0 x y : canon x -> canon y -> fzero (x - y) -> x = y.
Proof. unfold canon. intros X Y Q. destruct (Z.le_ge_cases y x); [|replace (x - y) with (- (y - x)) in Q by lia; unfold fzero in Q; apply Z.mod_opp_l_z in Q; [rewrite Z.opp_involutive in Q|unfold P; lia]; change (fzero (y - x)) in Q]; apply fzero_small in Q; lia. Qed.
Section Sound.
Context (t : list sdrow) (A : sd_accepted t).
Lemma sd_in_canon k r : t !! k = Some r -> sd_canon r.
Proof. intros E. pose proof (sda_canon _ A) as C. rewrite List.Forall_forall in C. apply C. eapply lookup_In; eauto. Qed.
Lemma sd_bits k r : t !! k = Some r -> bit (d_store r) /\ bit (d_dev r) /\ bit (d_executed r).
Proof.
  intros E. destruct (sd_in_canon k r E) as (C1 & C2 & C3 & C4 & C5 & C6 & C7). destruct (lookup_lt_is_Some_2 t (S k mod length t)) as [r' E'].
  { apply Nat.mod_upper_bound. apply lookup_lt_Some in E. lia. }
  pose proof (ts_always _ _ (sda_sat _ A) k r r' E E') as Z0. unfold all_zero, sd_air in Z0. cbn [a_always] in Z0. inv_all Z0.
  apply binary_canon in Z0c, Z0c0; auto. split; [exact Z0c|]. split; [exact Z0c0|]. apply binary_canon in Z0c1; [exact Z0c1|]. unfold d_executed, canon, bit, P in *. lia.
Qed.
Lemma sd_pair k r r' : t !! k = Some r -> t !! S k = Some r' ->
  all_zero (a_always sd_air r r') /\ all_zero (a_transition sd_air r r').
Proof.
  intros E E'. split; [|apply (ts_transition _ _ (sda_sat _ A) k r r' E E')]. apply (ts_always _ _ (sda_sat _ A) k r r' E).
  rewrite Nat.mod_small; [exact E'|]. apply lookup_lt_Some in E'. exact E'.
Qed.
(** the row after a call that reads at least one byte *)
Lemma after_call k r r' : t !! k = Some r -> t !! S k = Some r' -> d_dev r = 1 -> d_size r <> 0 -> d_addr r' = d_addr r /\ d_size r' = d_size r - 1.
Proof.
  intros E E' D N. destruct (sd_pair k r r' E E') as [_ Z0]. destruct (sd_in_canon k r E) as (C1 & C2 & C3 & _). destruct (sd_in_canon _ r' E') as (C1' & C2' & C3' & _).
  unfold all_zero, sd_air in Z0. cbn [a_transition] in Z0. inv_all Z0. rewrite D, Z.mul_1_l in Z0c0, Z0c1.
  assert (NZ : ~ fzero (d_size r)) by (intros Q; apply fzero_small in Q; unfold canon in C3; lia).
  apply fzero_mul in Z0c0 as [Q|Q]; [contradiction|]. apply fzero_mul in Z0c1 as [Q'|Q']; [contradiction|].
  split; [apply canon_sub0; auto|]. apply canon_sub0 in Q'; auto. unfold canon in *. lia.
Qed.
Context (CH : chained t) (U : forall k r, t !! k = Some r -> d_store r = 1 -> u32 (d_addr r)).
Lemma after_store k r r' : t !! k = Some r -> t !! S k = Some r' -> d_store r = 1 -> d_size r <> 0 -> d_store r' = 1 ->
  d_addr r' = word (d_addr r + 1) /\ d_size r' = d_size r - 1.
Proof.
  intros E E' D N D'. destruct (sd_pair k r r' E E') as [Z0 _]. pose proof (ch_both _ CH k r E D N) as B.
  split; [|apply (ch_size _ CH k r r' E E' B)]. pose proof (U k r E D) as U1. pose proof (U _ r' E' D') as U2.
  unfold all_zero, sd_air in Z0. cbn [a_always] in Z0. inv_all Z0. rewrite B, Z.mul_1_l in Z0c3.
  unfold word, M32, u32 in *. apply fzero_mul in Z0c3 as [K|K]; apply fzero_small in K; unfold P; lia.
Qed.
Lemma next_exists k r : t !! k = Some r -> d_executed r = 1 -> d_size r <> 0 -> exists r', t !! S k = Some r'.
Proof.
  intros E X N. destruct (t !! S k) as [r'|] eqn:E'; [eauto|]. exfalso. apply N. apply (ch_last _ CH r); [|exact X].
  apply lookup_ge_None_1 in E'. pose proof (lookup_lt_Some _ _ _ E). rewrite last_lookup. replace (pred (length t)) with k by lia. exact E.
Qed.
(** the bytes of a call *)
Lemma call_bytes k r : t !! k = Some r -> d_dev r = 1 -> u32 (d_addr r) -> forall j, Z.of_nat j < d_size r ->
  exists r', t !! (k + S j)%nat = Some r' /\ d_store r' = 1 /\ d_clk r' = d_clk r /\ d_addr r' = word (d_addr r + Z.of_nat j) /\ d_size r' = d_size r - Z.of_nat j - 1.
Proof.
  intros E D Ua. destruct (sd_bits k r E) as (B1 & B2 & B3). assert (X : d_executed r = 1) by (unfold d_executed, bit in *; lia).
  induction j as [|j IH]; intros L.
  - destruct (next_exists k r E X ltac:(lia)) as [r' E']. destruct (ch_next _ CH k r r' E E' X ltac:(lia)) as [St Ck]. destruct (after_call k r r' E E' D ltac:(lia)) as [Ad Sz].
    exists r'. replace (k + 1)%nat with (S k) by lia. rewrite Z.add_0_r, word_id by exact Ua. repeat split; auto; lia.
  - destruct IH as (q & Eq & St & Ck & Ad & Sz); [lia|]. destruct (sd_bits _ q Eq) as (Q1 & Q2 & Q3). assert (Xq : d_executed q = 1) by (unfold d_executed, bit in *; lia).
    destruct (next_exists _ q Eq Xq ltac:(lia)) as [r' E']. destruct (ch_next _ CH _ q r' Eq E' Xq ltac:(lia)) as [St' Ck']. destruct (after_store _ q r' Eq E' St ltac:(lia) St') as [Ad' Sz'].
    exists r'. replace (k + S (S j))%nat with (S (k + S j)) by lia. split; [exact E'|]. split; [exact St'|]. split; [congruence|]. split; [|lia].
    rewrite Ad', Ad, word_add_l. f_equal. lia.
Qed.
(** and every stored byte belongs to a call *)
Lemma stored_by_call : forall m r', t !! m = Some r' -> d_store r' = 1 ->
  exists k r j, m = (k + S j)%nat /\ t !! k = Some r /\ d_dev r = 1 /\ Z.of_nat j < d_size r /\ d_size r' = d_size r - Z.of_nat j - 1.
Proof.
  induction m as [|m IH]; intros r' E' St; [rewrite (ch_first _ CH r' E') in St; discriminate|].
  destruct (ch_prev _ CH m r' E' St) as (q & Eq & Xq & Nq). destruct (sd_bits m q Eq) as (Q1 & Q2 & Q3). destruct (sd_in_canon m q Eq) as (_ & _ & Cq & _).
  destruct (Z.eq_dec (d_dev q) 1) as [D|D].
  - destruct (after_call m q r' Eq E' D Nq) as [_ Sz]. exists m, q, 0%nat. unfold canon in Cq. repeat split; auto; lia.
  - assert (Sq : d_store q = 1) by (unfold d_executed, bit in *; lia). destruct (IH q Eq Sq) as (k & r & j & -> & Er & Dr & L & Sz).
    destruct (after_store _ q r' Eq E' Sq Nq St) as [_ Sz']. exists k, r, (S j). unfold canon in Cq. repeat split; auto; lia.
Qed.
End Sound.

(** ** The tape tables inside the system *)
Lemma ctl_sym a b : ctl_ok a b -> ctl_ok b a.
Proof. intros C v. specialize (C v). unfold fzero in *. replace (mult_of v b - mult_of v a) with (- (mult_of v a - mult_of v b)) by lia. apply Z.mod_opp_l_z in C; [exact C|unfold P; lia]. Qed.
Section System.
Context cpus half full tables others mem (TS : tape_system cpus half full tables others mem).
Let MS := tps_mem _ _ _ _ _ _ TS.
Lemma tape_store_in o r : In o tape_order -> In r (tables o) -> d_store r = 1 -> accesses mem (d_clk r) 1 0 (d_addr r) (d_value r) /\ u32 (d_addr r) /\ u8 (d_value r).
Proof.
  intros Io I D. pose proof (sda_canon _ (tps_tables _ _ _ _ _ _ TS o Io)) as C. rewrite List.Forall_forall in C. destruct (C r I) as (C1 & C2 & C3 & C4 & C5 & C6 & C7).
  apply (into_mem cpus half full (all_sd_mem_looking tables ++ others) mem MS); [repeat (constructor; auto); unfold canon, P; lia|].
  apply in_or_app. right. apply in_or_app. left. apply in_or_app. left. unfold all_sd_mem_looking. apply in_flat_map. exists o. split; [exact Io|].
  unfold sd_mem_looking. apply in_map_iff. exists r. rewrite D. auto.
Qed.
(** every tape read of the CPU table has its row *)
Definition tape_index (o : sd_op) : nat :=
  match o with StorePrivate => 0 | StorePublic => 1 | StoreCallTape => 2 | StoreEventTape => 3 | StoreEventsCommitmentTape => 4 | StoreCastListCommitmentTape => 5 | _ => 6 end%nat.
Lemma sels_bit r : In r cpus -> bit (sumZ (map (c_ecall r) storage_sels)) /\
  (forall o, In o tape_order -> c_ecall r (tape_sel o) = 1 -> sumZ (map (c_ecall r) storage_sels) = 1 /\ ascending_sum (map (c_ecall r) storage_sels) = Z.of_nat (tape_index o)).
Proof.
  intros I. destruct (accepted_always _ _ (ms_cpu _ _ _ _ _ MS) I) as [C Z0]. destruct (one_hot r C Z0) as [B O]. destruct (ecall_sound r C Z0) as [E1 E0].
  unfold ascending_sum, storage_sels. cbn -[Z.mul Z.add]. destruct (B o_ecall) as [Q|Q].
  - assert (E : forall e, c_ecall r e = 0) by (apply E0, Q). rewrite !E. split; [left; reflexivity|]. intros o _ W. rewrite E in W. discriminate.
  - destruct (E1 Q) as (e & He & _ & N). assert (V : forall e', c_ecall r e' = if decide (e' = e) then 1 else 0).
    { intros e'. destruct (decide (e' = e)) as [->|D]; [exact He|apply N, D]. }
    rewrite !V. split; [destruct e; cbn; unfold bit; auto|]. intros o Io W. rewrite V in W. destruct (decide (tape_sel o = e)) as [D|D]; [|discriminate]. subst e.
    destruct o; cbn in Io; try (exfalso; intuition discriminate); cbn; auto.
Qed.
Lemma read_row r o : In r cpus -> In o tape_order -> c_ecall r (tape_sel o) = 1 ->
  exists q, In q (tables o) /\ d_dev q = 1 /\ d_clk q = c_clk r /\ d_addr q = c_io_addr r /\ d_size q = c_io_size r.
Proof.
  intros I Io W. destruct (sels_bit r I) as [_ SB]. destruct (SB o Io W) as [S1 AS].
  pose proof (ac_canon _ (ms_cpu _ _ _ _ _ MS)) as CC. rewrite List.Forall_forall in CC. specialize (CC r I). rewrite List.Forall_forall in CC.
  assert (K : In ([Z.of_nat (tape_index o); c_clk r; c_io_addr r; c_io_size r], 1) (cpu_sd_looked cpus)).
  { unfold cpu_sd_looked. apply in_map_iff. exists r. rewrite S1, AS. auto. }
  apply (ctl_member _ _ _ (ctl_sym _ _ (tps_cpu _ _ _ _ _ _ TS))) in K.
  - destruct K as (tp & m & It & Ky & NZ). unfold all_sd_cpu_looking in It. apply in_flat_map in It as ([k o'] & Iko & It).
    unfold sd_cpu_looking in It. apply in_map_iff in It as (q & E & Iq). injection E as <- <-.
    assert (Io' : In o' tape_order) by (eapply in_combine_r; exact Iko). pose proof (sda_canon _ (tps_tables _ _ _ _ _ _ TS o' Io')) as CT.
    rewrite List.Forall_forall in CT. destruct (CT q Iq) as (C1 & C2 & C3 & C4 & C5 & C6 & C7).
    assert (Lk : (k < 7)%nat) by (apply in_combine_l, in_seq in Iko; lia).
    apply tuple_canon in Ky; [|repeat (constructor; auto); unfold canon, P; lia|].
    + injection Ky as Ek E1 E2 E3. assert (o' = o) as -> by (revert Io Ek; clear -Iko; cbn in Iko; intuition; repeat match goal with H : (_, _) = (_, _) |- _ => injection H as <- <- end; destruct o; cbn in *; (intuition discriminate || reflexivity)).
      exists q. split; [exact Iq|]. apply In_lookup in Iq as [j Ej]. destruct (sd_bits _ (tps_tables _ _ _ _ _ _ TS o Io) j q Ej) as (B1 & B2 & _).
      split; [apply bit_nz; auto|]. auto.
    + apply List.Forall_cons; [unfold canon, P; destruct o; cbn; lia|]. repeat apply List.Forall_cons; try apply List.Forall_nil; apply CC; unfold cpu_columns; rewrite !in_app_iff; cbn; auto 60.
  - apply List.Forall_forall. intros e Ie. unfold cpu_sd_looked in Ie. apply in_map_iff in Ie as (r' & <- & I'). apply (sels_bit r' I').
  - unfold cpu_sd_looked. rewrite map_length. pose proof (ac_len _ (ms_cpu _ _ _ _ _ MS)) as ML. unfold max_rows in ML. unfold P. lia.
Qed.
(** and every call row belongs to a tape read of the CPU table *)
Lemma call_row o q : In o tape_order -> In q (tables o) -> d_dev q = 1 ->
  exists r, In r cpus /\ c_ecall r (tape_sel o) = 1 /\ c_clk r = d_clk q /\ c_io_addr r = d_addr q /\ c_io_size r = d_size q.
Proof.
  intros Io Iq D. pose proof (sda_canon _ (tps_tables _ _ _ _ _ _ TS o Io)) as CT. rewrite List.Forall_forall in CT. destruct (CT q Iq) as (C1 & C2 & C3 & C4 & C5 & C6 & C7).
  assert (K : In ([Z.of_nat (tape_index o); d_clk q; d_addr q; d_size q], 1) (all_sd_cpu_looking tables)).
  { unfold all_sd_cpu_looking. apply in_flat_map. exists (tape_index o, o). split; [destruct o; cbn in *; intuition discriminate|]. unfold sd_cpu_looking. apply in_map_iff. exists q. rewrite D. auto. }
  apply (ctl_member _ _ _ (tps_cpu _ _ _ _ _ _ TS)) in K.
  - destruct K as (tp & m & It & Ky & NZ). unfold cpu_sd_looked in It. apply in_map_iff in It as (r & E & I). injection E as <- <-. destruct (sels_bit r I) as [SB SV].
    pose proof (ac_canon _ (ms_cpu _ _ _ _ _ MS)) as CC. rewrite List.Forall_forall in CC. specialize (CC r I). rewrite List.Forall_forall in CC.
    assert (S1 : sumZ (map (c_ecall r) storage_sels) = 1) by (apply bit_nz; auto).
    destruct (accepted_always _ _ (ms_cpu _ _ _ _ _ MS) I) as [C Z0]. destruct (one_hot r C Z0) as [B _]. destruct (ecall_sound r C Z0) as [_ E0].
    assert (EX : exists o', In o' tape_order /\ c_ecall r (tape_sel o') = 1).
    { destruct (sum_bits_pos (c_ecall r) storage_sels) as (e & Ie & He); [intros e _|lia|].
      - destruct (B o_ecall) as [Q|Q]; [left; apply (E0 Q)|]. destruct (ecall_sound r C Z0) as [E1 _]. destruct (E1 Q) as (e' & He' & _ & N). destruct (decide (e = e')) as [->|D']; [right; exact He'|left; apply N, D'].
      - assert (G : exists o', In o' tape_order /\ tape_sel o' = e).
        { cbn in Ie. repeat (destruct Ie as [<-|Ie]); [exists StorePrivate|exists StorePublic|exists StoreCallTape|exists StoreEventTape|exists StoreEventsCommitmentTape|exists StoreCastListCommitmentTape|exists StoreSelfProgIdTape|destruct Ie]; (split; [cbn; auto 10|reflexivity]). }
        destruct G as (o' & Io' & <-). eauto. }
    destruct EX as (o' & Io' & W). destruct (SV o' Io' W) as [_ AS]. change (tuple_key [ascending_sum (map (c_ecall r) storage_sels); c_clk r; c_io_addr r; c_io_size r] = tuple_key [Z.of_nat (tape_index o); d_clk q; d_addr q; d_size q]) in Ky. rewrite AS in Ky. apply tuple_canon in Ky.
    + injection Ky as Ek E1 E2 E3. apply Nat2Z.inj in Ek. assert (o' = o) as -> by (revert Io Io' Ek; clear; destruct o, o'; cbn; intros; try discriminate; try reflexivity; intuition discriminate).
      exists r. auto.
    + apply List.Forall_cons; [unfold canon, P; destruct o'; cbn; lia|]. repeat apply List.Forall_cons; try apply List.Forall_nil; apply CC; unfold cpu_columns; rewrite !in_app_iff; cbn; auto 60.
    + repeat (constructor; auto); unfold canon, P; destruct o; cbn; lia.
  - apply List.Forall_forall. intros e Ie. unfold all_sd_cpu_looking in Ie. apply in_flat_map in Ie as ([k o'] & Iko & Ie). unfold sd_cpu_looking in Ie. apply in_map_iff in Ie as (q' & <- & Iq').
    assert (Io' : In o' tape_order) by (eapply in_combine_r; exact Iko). apply In_lookup in Iq' as [j Ej]. apply (sd_bits _ (tps_tables _ _ _ _ _ _ TS o' Io') j q' Ej).
  - assert (ML : forall o', In o' tape_order -> Z.of_nat (length (tables o')) <= 2 ^ 32) by (intros o' Io'; apply (sda_len _ (tps_tables _ _ _ _ _ _ TS o' Io'))).
    unfold all_sd_cpu_looking, sd_cpu_looking, tape_order. cbn [combine seq flat_map]. rewrite !app_length, !map_length. cbn [length].
    pose proof (ML StorePrivate ltac:(cbn; auto 10)). pose proof (ML StorePublic ltac:(cbn; auto 10)). pose proof (ML StoreCallTape ltac:(cbn; auto 10)). pose proof (ML StoreEventTape ltac:(cbn; auto 10)).
    pose proof (ML StoreEventsCommitmentTape ltac:(cbn; auto 10)). pose proof (ML StoreCastListCommitmentTape ltac:(cbn; auto 10)). pose proof (ML StoreSelfProgIdTape ltac:(cbn; auto 10)).
    unfold P. lia.
Qed.
End System.

(** ** Tape commitments *)
Definition indexed (l : list Z) : entries := map (fun '(i, b) => ([b; Z.of_nat i], 1)) (combine (seq 0 (length l)) l).
Lemma tc_rows v c a d : mult_of v (tc_looking (gen_sd_rows c a d)) = mult_of v (map (fun '(i, b) => ([b; 32 - Z.of_nat (length d) + Z.of_nat i], 1)) (combine (seq 0 (length d)) d)).
Proof.
  unfold tc_looking, gen_sd_rows. cbn [map]. rewrite mult_of_cons. cbn [d_store]. replace (if decide _ then 0 else 0) with 0 by (destruct (decide _); reflexivity).
  rewrite Z.add_0_l, map_map. f_equal. apply map_ext. intros [i b]. cbn [d_value d_size d_store]. repeat f_equal. lia.
Qed.
Lemma tc_full v c a d : length d = 32%nat -> mult_of v (tc_looking (gen_sd_rows c a d)) = mult_of v (indexed d).
Proof. intros L. rewrite tc_rows. f_equal. unfold indexed. apply map_ext. intros [i b]. repeat f_equal. rewrite L. lia. Qed.
Lemma tc_short b c a d : (length d < 32)%nat -> mult_of [b; 0] (tc_looking (gen_sd_rows c a d)) = 0.
Proof.
  intros L. rewrite tc_rows. apply mult_of_nokey. intros t m I. apply in_map_iff in I as ([i x] & E & I). injection E as <- <-. apply in_combine_l, in_seq in I.
  unfold tuple_key. cbn [map]. intros K. injection K as _ K. rewrite Z.mod_small in K by (unfold P; lia). rewrite Z.mod_0_l in K by (unfold P; lia). lia.
Qed.
Lemma indexed_from_zero b n l : (0 < n)%nat -> Z.of_nat (n + length l) < P -> mult_of [b; 0] (map (fun '(i, x) => ([x; Z.of_nat i], 1)) (combine (seq n (length l)) l)) = 0.
Proof.
  intros Hn L. apply mult_of_nokey. intros t m I. apply in_map_iff in I as ([i x] & E & I). injection E as <- <-. apply in_combine_l, in_seq in I.
  unfold tuple_key. cbn [map]. intros K. injection K as _ K. rewrite Z.mod_small in K by lia. rewrite Z.mod_0_l in K by (unfold P; lia). lia.
Qed.
Lemma indexed_zero b l : Z.of_nat (length (b :: l)) < P -> mult_of [b; 0] (indexed (b :: l)) = 1.
Proof.
  intros L. unfold indexed. cbn [length seq combine map]. rewrite mult_of_cons, decide_True by reflexivity. rewrite indexed_from_zero; [reflexivity|lia|cbn [length] in L; lia].
Qed.
Lemma mult_scale {A} v (f : A -> list Z) k l : mult_of v (map (fun x => (f x, k)) l) = k * mult_of v (map (fun x => (f x, 1)) l).
Proof. induction l as [|x l IH]; [cbn; lia|]. cbn [map]. rewrite !mult_of_cons, IH. case_decide; lia. Qed.
Lemma tc_looked_event v rows last : mult_of v (tc_event_looked (generate_tc_trace rows last)) = (num_ecalls StoreEventsCommitmentTape rows mod P) * mult_of v (indexed (events_commitment_tape last)).
Proof.
  unfold tc_event_looked, generate_tc_trace, indexed. rewrite map_app, mult_of_app, (mult_of_zero v (map _ (map _ _))).
  - rewrite Z.add_0_l, map_map. rewrite (map_ext _ (fun x : nat * Z => ((fun '(i, b) => [b; Z.of_nat i]) x, num_ecalls StoreEventsCommitmentTape rows mod P))) by (intros [? ?]; reflexivity).
    rewrite mult_scale. f_equal. f_equal. apply map_ext. intros [? ?]. reflexivity.
  - intros e I. apply in_map_iff in I as (r & <- & I). apply in_map_iff in I as ([i b] & <- & _). reflexivity.
Qed.
Lemma tc_looked_cast v rows last : mult_of v (tc_cast_looked (generate_tc_trace rows last)) = (num_ecalls StoreCastListCommitmentTape rows mod P) * mult_of v (indexed (cast_list_commitment_tape last)).
Proof.
  unfold tc_cast_looked, generate_tc_trace, indexed. rewrite map_app, mult_of_app, (mult_of_zero v (map _ (map _ (combine _ (events_commitment_tape last))))).
  - rewrite Z.add_0_r, map_map. rewrite (map_ext _ (fun x : nat * Z => ((fun '(i, b) => [b; Z.of_nat i]) x, num_ecalls StoreCastListCommitmentTape rows mod P))) by (intros [? ?]; reflexivity).
    rewrite mult_scale. f_equal. f_equal. apply map_ext. intros [? ?]. reflexivity.
  - intros e I. apply in_map_iff in I as (r & <- & I). apply in_map_iff in I as ([i b] & <- & _). reflexivity.
Qed.
Lemma tc_public_event v rows last : mult_of v (tc_event_public (generate_tc_trace rows last)) = mult_of v (public_values (events_commitment_tape last)).
Proof.
  unfold tc_event_public, generate_tc_trace, public_values. rewrite map_app, mult_of_app, (mult_of_zero v (map _ (map _ _))).
  - rewrite Z.add_0_l, map_map. generalize 0%nat. generalize (events_commitment_tape last). induction l as [|x l IH]; intros n; [reflexivity|]. cbn [length seq combine map]. rewrite !mult_of_cons, IH. reflexivity.
  - intros e I. apply in_map_iff in I as (r & <- & I). apply in_map_iff in I as ([i b] & <- & _). reflexivity.
Qed.
Lemma tc_public_cast v rows last : mult_of v (tc_cast_public (generate_tc_trace rows last)) = mult_of v (public_values (cast_list_commitment_tape last)).
Proof.
  unfold tc_cast_public, generate_tc_trace, public_values. rewrite map_app, mult_of_app, (mult_of_zero v (map _ (map _ (combine _ (events_commitment_tape last))))).
  - rewrite Z.add_0_r, map_map. generalize 0%nat. generalize (cast_list_commitment_tape last). induction l as [|x l IH]; intros n; [reflexivity|]. cbn [length seq combine map]. rewrite !mult_of_cons, IH. reflexivity.
  - intros e I. apply in_map_iff in I as (r & <- & I). apply in_map_iff in I as ([i b] & <- & _). reflexivity.
Qed.
Lemma tc_sat rows last : (0 < length (cast_list_commitment_tape last))%nat -> trace_sat tc_air (generate_tc_trace rows last).
Proof.
  intros L. assert (RO : forall r, In r (generate_tc_trace rows last) -> forall r', all_zero (a_always tc_air r r')).
  { intros r I r'. unfold generate_tc_trace in I. apply in_app_iff in I as [I|I]; apply in_map_iff in I as ([i b] & <- & _); unfold all_zero, tc_air; cbn [a_always tc_is_event tc_is_cast tc_event_mult tc_cast_mult];
      repeat constructor; apply fz_eq; unfold is_binary; ring. }
  constructor.
  - intros Q. apply (f_equal (@length _)) in Q. unfold generate_tc_trace in Q. rewrite app_length, map_length, combine_length, seq_length in Q. cbn [length] in Q. lia.
  - intros r _. constructor.
  - intros k r r' Ek _. apply RO. eapply lookup_In; eauto.
  - intros k r r' _ _. constructor.
  - intros r _. constructor.
Qed.
Section Commit.
Variable permute : list Z -> list Z.
Variable utf8_ok : list Z -> bool.
Notation step_ok := (step_ok permute utf8_ok).
Lemma num_ecalls_reads p o rows : program_ok p -> Forall (step_ok p) rows -> o <> SdNone -> num_ecalls o rows = Z.of_nat (length (tape_reads o rows)).
Proof.
  intros PO F Ho. unfold num_ecalls, tape_reads. f_equal. induction F as [|[[s i] a] l H F IH]; [reflexivity|].
  change (omap (tape_read o) ((s, i, a) :: l)) with (match tape_read o (s, i, a) with Some y => y :: omap (tape_read o) l | None => omap (tape_read o) l end).
  cbn [List.filter]. rewrite (entry_read permute utf8_ok p s i a PO H). unfold tape_read.
  case_bool_decide as Q; cbn [andb]; [|exact IH]. destruct (read_call (reg s REG_A0)) as [o'|]; cbn [sd_opcode].
  - destruct (decide (o' = o)) as [->|N].
    + rewrite !bool_decide_eq_true_2 by reflexivity. cbn [length]. rewrite IH. reflexivity.
    + rewrite !bool_decide_eq_false_2 by congruence. exact IH.
  - rewrite bool_decide_eq_false_2 by discriminate. exact IH.
Qed.
(** the reads of a tape that is the same in every state *)
Lemma constant_reads p o rows tape : Forall (step_ok p) rows -> (forall s i a, In (s, i, a) rows -> available o s = tape) ->
  Forall (fun '(_, _, d) => exists n, d = take n tape) (tape_reads o rows).
Proof.
  intros F C. induction F as [|[[s i] a] l H F IH]; [constructor|]. unfold tape_reads.
  change (omap (tape_read o) ((s, i, a) :: l)) with (match tape_read o (s, i, a) with Some y => y :: omap (tape_read o) l | None => omap (tape_read o) l end).
  assert (T : Forall (fun '(_, _, d) => exists n, d = take n tape) (omap (tape_read o) l)) by (apply IH; intros; eapply C; right; eauto).
  unfold tape_read at 1. destruct (_ && _); [|exact T]. constructor; [|exact T]. rewrite (C s i a (or_introl eq_refl)). eauto.
Qed.
Lemma tc_ctl p o rows tape looked : program_ok p -> Forall (step_ok p) rows -> o <> SdNone -> Z.of_nat (length rows) <= 2 ^ 32 ->
  length tape = 32%nat -> (forall s i a, In (s, i, a) rows -> available o s = tape) ->
  (forall v, mult_of v looked = (num_ecalls o rows mod P) * mult_of v (indexed tape)) ->
  ctl_ok (tc_looking (generate_sd_trace o rows)) looked <-> Forall (fun '(_, _, d) => length d = 32%nat) (tape_reads o rows).
Proof.
  intros PO F Ho LR LT C LK. pose proof (constant_reads p o rows tape F C) as CR.
  assert (LL : Z.of_nat (length (tape_reads o rows)) <= 2 ^ 32).
  { assert (length (tape_reads o rows) <= length rows)%nat; [|lia]. unfold tape_reads. clear. induction rows as [|x l IH]; [cbn; lia|].
    change (omap (tape_read o) (x :: l)) with (match tape_read o x with Some y => y :: omap (tape_read o) l | None => omap (tape_read o) l end).
    destruct (tape_read o x); cbn [length]; lia. }
  assert (NM : num_ecalls o rows mod P = Z.of_nat (length (tape_reads o rows))) by (rewrite (num_ecalls_reads p o rows PO F Ho); apply Z.mod_small; unfold P; lia).
  assert (MT : forall v, mult_of v (tc_looking (generate_sd_trace o rows)) = sumZ (map (fun '(c, a, d) => mult_of v (tc_looking (gen_sd_rows (c mod P) a d))) (tape_reads o rows))).
  { intros v. unfold tc_looking. rewrite (generated_blocks permute utf8_ok p o rows PO F Ho), mult_table by reflexivity. rewrite map_map. apply sumZ_ext. intros [[c a] d] _. reflexivity. }
  assert (SH : forall x, In x (tape_reads o rows) -> let '(_, _, d) := x in d = tape \/ (length d < 32)%nat).
  { rewrite List.Forall_forall in CR. intros [[c a] d] I. destruct (CR _ I) as [n ->]. destruct (le_lt_dec 32 n); [left; apply take_ge; lia|right; rewrite take_length; lia]. }
  split.
  - intros CT. destruct tape as [|b tape']; [discriminate|]. specialize (CT [b; 0]). rewrite MT, LK, NM, indexed_zero in CT by (unfold P; rewrite LT; lia).
    assert (G : forall l, (forall x, In x l -> let '(_, _, d) := x in d = b :: tape' \/ (length d < 32)%nat) ->
      0 <= sumZ (map (fun '(c, a, d) => mult_of [b; 0] (tc_looking (gen_sd_rows (c mod P) a d))) l) <= Z.of_nat (length l) /\
      (sumZ (map (fun '(c, a, d) => mult_of [b; 0] (tc_looking (gen_sd_rows (c mod P) a d))) l) = Z.of_nat (length l) -> Forall (fun '(_, _, d) => length d = 32%nat) l)).
    { clear -LT. induction l as [|[[c a] d] l IH]; intros H; [split; [cbn; lia|constructor]|]. cbn [map]. rewrite sumZ_cons. destruct (IH (fun x I => H x (or_intror I))) as [B1 B2].
      pose proof (H _ (or_introl eq_refl)) as Q. cbn in Q. cbn [length]. destruct Q as [->|Q].
      - rewrite tc_full by exact LT. rewrite indexed_zero by (rewrite LT; unfold P; lia). split; [lia|]. intros Q. constructor; [exact LT|apply B2; lia].
      - rewrite tc_short by exact Q. split; [lia|]. intros Q'. lia. }
    destruct (G _ SH) as [B1 B2]. apply B2. clear -CT B1 LL. rewrite Z.mul_1_r in CT.
    replace (sumZ _ - _) with (- (Z.of_nat (length (tape_reads o rows)) - sumZ (map (fun '(c, a, d) => mult_of [b; 0] (tc_looking (gen_sd_rows (c mod P) a d))) (tape_reads o rows)))) in CT by lia.
    unfold fzero in CT. apply Z.mod_opp_l_z in CT; [|unfold P; lia]. rewrite Z.opp_involutive in CT. assert (HP : 2 ^ 33 < P) by reflexivity. rewrite Z.mod_small in CT; lia.
  - intros FA v. rewrite MT, LK, NM. apply fz_eq. rewrite List.Forall_forall in FA. revert SH FA. generalize (tape_reads o rows). clear -LT. induction l as [|[[c a] d] l IH]; intros SH FA; [cbn; lia|].
    cbn [map]. rewrite sumZ_cons. pose proof (FA _ (or_introl eq_refl)) as Q. cbn in Q. pose proof (SH _ (or_introl eq_refl)) as Q'. cbn in Q'. destruct Q' as [->|Q']; [|lia].
    rewrite tc_full by exact Q. specialize (IH (fun x I => SH x (or_intror I)) (fun x I => FA x (or_intror I))). cbn [length]. rewrite Nat2Z.inj_succ, Z.mul_succ_l. lia.
Qed.
(** the commitment tapes never change *)
Lemma constant_run limit p fuel s rec o : state_ok s -> program_ok p -> step permute utf8_ok limit p fuel s = Ok rec ->
  constant_tape o (last_state rec) = constant_tape o s /\ forall r, In r (executed rec) -> constant_tape o (rstate r) = constant_tape o s.
Proof.
  intros OK PO R. destruct (run_reach permute utf8_ok limit p fuel s s rec) as [FR LR]; [constructor|exact R|].
  assert (G : forall s', reach permute utf8_ok p s s' -> constant_tape o s' = constant_tape o s).
  { intros s' RE. induction RE as [|s1 a i s2 RE IH H X]; [reflexivity|]. assert (O1 : state_ok s1) by (eapply reach_ok; eauto).
    destruct (execute_inv _ _ _ _ _ _ _ O1 PO X) as (_ & _ & a0 & s0 & _ & FM & -> & _). rewrite <- IH, <- (fr_fixed _ _ _ FM o). destruct o; reflexivity. }
  split; [apply G, LR|]. intros r I. apply G. rewrite List.Forall_forall in FR. apply (FR r I).
Qed.
End Commit.

(** ** Published commitments *)
Lemma public_perm v l l' : Permutation l l' -> mult_of v (public_values l) = mult_of v (public_values l').
Proof. unfold public_values. intros Q. induction Q; cbn [map]; rewrite ?mult_of_cons; lia. Qed.
Lemma mult_count b l : Forall canon l -> canon b -> mult_of [b] (public_values l) = Z.of_nat (count_occ Z.eq_dec l b).
Proof.
  intros F B. unfold public_values. induction F as [|x l X F IH]; [reflexivity|]. cbn [map count_occ]. rewrite mult_of_cons, IH. destruct (Z.eq_dec x b) as [->|N].
  - rewrite decide_True by reflexivity. lia.
  - rewrite decide_False; [lia|]. intros K. apply tuple_canon in K; [congruence|repeat (constructor; auto)..].
Qed.
Lemma filter_le {A} (f : A -> bool) l : (length (List.filter f l) <= length l)%nat.
Proof. induction l as [|x l IH]; cbn; [lia|]. destruct (f x); cbn; lia. Qed.
Section Published.
Context (tc : list tcrow) (T : tc_accepted tc).
Lemma tc_in_canon r : In r tc -> tc_canon r.
Proof. pose proof (tca_canon _ T) as C. rewrite List.Forall_forall in C. apply C. Qed.
Lemma tc_in r : In r tc -> bit (tc_is_event r) /\ bit (tc_is_cast r) /\ (tc_is_event r = 0 -> tc_event_mult r = 0) /\ (tc_is_cast r = 0 -> tc_cast_mult r = 0).
Proof.
  intros I. destruct (tc_in_canon r I) as (C1 & C2 & C3 & C4 & C5 & C6). apply In_lookup in I as [k E]. destruct (lookup_lt_is_Some_2 tc (S k mod length tc)) as [r' E'].
  { apply Nat.mod_upper_bound. apply lookup_lt_Some in E. lia. }
  pose proof (ts_always _ _ (tca_sat _ T) k r r' E E') as Z0. unfold all_zero, tc_air in Z0. cbn [a_always] in Z0. inv_all Z0.
  apply binary_canon in Z0c, Z0c0; auto. split; [exact Z0c|]. split; [exact Z0c0|]. split; intros Q; rewrite Q, Z.sub_0_r, Z.mul_1_r in *; (apply fzero_small; auto; unfold canon in *; lia).
Qed.
(** rows marked by a selector, as a list of bytes *)
Lemma marked_mult (sel : tcrow -> Z) v : (forall r, In r tc -> bit (sel r)) ->
  mult_of v (map (fun r => ([tc_byte r], sel r)) tc) = mult_of v (public_values (map tc_byte (List.filter (fun r => sel r =? 1) tc))).
Proof.
  unfold public_values. clear T. induction tc as [|r l IH]; intros B; [reflexivity|]. cbn [map List.filter]. rewrite mult_of_cons, IH by (intros; apply B; right; auto).
  destruct (B r (or_introl eq_refl)) as [Q|Q]; rewrite Q; cbn [Z.eqb Pos.eqb map]; [destruct (decide _); reflexivity|]. rewrite mult_of_cons. reflexivity.
Qed.
Lemma marked_perm (sel : tcrow -> Z) pub : (forall r, In r tc -> bit (sel r)) -> Forall u8 pub -> Z.of_nat (length pub) < P ->
  ctl_ok (map (fun r => ([tc_byte r], sel r)) tc) (public_values pub) -> Permutation (map tc_byte (List.filter (fun r => sel r =? 1) tc)) pub.
Proof.
  intros B U L C. apply (Permutation_count_occ Z.eq_dec). intros b. set (m := map tc_byte (List.filter (fun r => sel r =? 1) tc)).
  assert (Cm : Forall canon m). { apply List.Forall_forall. intros x I. unfold m in I. apply in_map_iff in I as (r & <- & I). apply filter_In in I as [I _]. apply (tc_in_canon r I). }
  assert (Cp : Forall canon pub). { revert U. apply List.Forall_impl. intros x X. unfold u8, canon, P in *. lia. }
  destruct (decide (canon b)) as [Cb|Cb].
  - specialize (C [b]). rewrite (marked_mult sel [b] B) in C. fold m in C. rewrite !mult_count in C by auto.
    pose proof (count_occ_bound Z.eq_dec b m) as B1. pose proof (count_occ_bound Z.eq_dec b pub) as B2.
    assert (Lm : Z.of_nat (length m) <= 2 ^ 32). { unfold m. rewrite map_length. pose proof (tca_len _ T) as ML. unfold max_rows in ML. pose proof (filter_le (fun r => sel r =? 1) tc). lia. }
    apply Nat2Z.inj. apply canon_sub0; [unfold canon, P in *; lia|unfold canon; lia|exact C].
  - rewrite !(proj1 (count_occ_not_In Z.eq_dec _ _)); [reflexivity| |]; intros I; apply Cb; [rewrite List.Forall_forall in Cp; auto|rewrite List.Forall_forall in Cm; auto].
Qed.
Lemma marked_bytes t (sel mul : tcrow -> Z) pub : (forall r, In r tc -> bit (sel r) /\ (sel r = 0 -> mul r = 0)) -> Forall u8 pub -> Z.of_nat (length pub) < P -> sd_accepted t ->
  ctl_ok (tc_looking t) (map (fun r => ([tc_byte r; tc_index r], mul r)) tc) -> ctl_ok (map (fun r => ([tc_byte r], sel r)) tc) (public_values pub) ->
  forall q, In q t -> d_store q = 1 -> In (d_value q) pub.
Proof.
  intros B U L A C1 C2 q Iq D. assert (K : In ([d_value q; 31 - d_size q], 1) (tc_looking t)) by (unfold tc_looking; apply in_map_iff; exists q; rewrite D; auto).
  apply (ctl_member _ _ _ C1) in K.
  - destruct K as (v & m & I & Ky & NZ). apply in_map_iff in I as (r & Q & I). injection Q as <- <-. unfold tuple_key in Ky. cbn [map] in Ky. injection Ky as K1 _.
    pose proof (sda_canon _ A) as CA. rewrite List.Forall_forall in CA. destruct (CA q Iq) as (_ & _ & _ & Cv & _). destruct (tc_in_canon r I) as (Cb & _). apply canon_mod in K1; auto. rewrite <- K1.
    destruct (B r I) as [Bs Zs]. assert (S1 : sel r = 1) by (destruct Bs as [Q|Q]; [exfalso; apply NZ; rewrite (Zs Q); reflexivity|exact Q]).
    apply (Permutation_in _ (marked_perm sel pub (fun r I => proj1 (B r I)) U L C2)). apply in_map. apply filter_In. rewrite S1. auto.
  - apply List.Forall_forall. intros e I. unfold tc_looking in I. apply in_map_iff in I as (r & <- & I). apply In_lookup in I as [k Ek]. apply (sd_bits _ A k r Ek).
  - unfold tc_looking. rewrite map_length. pose proof (sda_len _ A) as ML. unfold max_rows in ML. unfold P. lia.
Qed.
End Published.
Lemma published_bytes t tc pub : sd_accepted t -> tc_accepted tc -> Forall u8 pub -> Z.of_nat (length pub) < P ->
  ctl_ok (tc_looking t) (tc_event_looked tc) -> ctl_ok (tc_event_public tc) (public_values pub) -> forall q, In q t -> d_store q = 1 -> In (d_value q) pub.
Proof. intros A T U L C1 C2. eapply (marked_bytes tc T t tc_is_event tc_event_mult); eauto. intros r I. destruct (tc_in tc T r I) as (B1 & B2 & Z1 & Z2). auto. Qed.
Lemma published_bytes_cast t tc pub : sd_accepted t -> tc_accepted tc -> Forall u8 pub -> Z.of_nat (length pub) < P ->
  ctl_ok (tc_looking t) (tc_cast_looked tc) -> ctl_ok (tc_cast_public tc) (public_values pub) -> forall q, In q t -> d_store q = 1 -> In (d_value q) pub.
Proof. intros A T U L C1 C2. eapply (marked_bytes tc T t tc_is_cast tc_cast_mult); eauto. intros r I. destruct (tc_in tc T r I) as (B1 & B2 & Z1 & Z2). auto. Qed.
Lemma published_perm tc pub : tc_accepted tc -> Forall u8 pub -> Z.of_nat (length pub) < P -> ctl_ok (tc_event_public tc) (public_values pub) ->
  Permutation (map tc_byte (List.filter (fun r => tc_is_event r =? 1) tc)) pub.
Proof. intros T U L C. apply marked_perm; auto. intros r I. apply (tc_in tc T r I). Qed.
Lemma published_perm_cast tc pub : tc_accepted tc -> Forall u8 pub -> Z.of_nat (length pub) < P -> ctl_ok (tc_cast_public tc) (public_values pub) ->
  Permutation (map tc_byte (List.filter (fun r => tc_is_cast r =? 1) tc)) pub.
Proof. intros T U L C. apply marked_perm; auto. intros r I. apply (tc_in tc T r I). Qed.
