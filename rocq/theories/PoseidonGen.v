(** The generated hash tables: proofs. *)
From Verif Require Import PoseidonSpec DeviceProofs PoseidonPerm ExecProofs TableProofs CpuTrace StateProofs WordProofs StateWitness StepProofs EcallProofs RunProofs CpuProofs CpuGen WordProps.
Open Scope Z_scope.

(** ** The hash call of a step *)
Section WithHash.
Variable permute : list Z -> list Z.
Hypothesis permute12 : forall l, state12 (permute l).
Variable utf8_ok : list Z -> bool.
Notation step_ok := (step_ok permute utf8_ok).

Definition call_entry (x : Z * Z * Z * list Z) (y : Z * p2_entry) : Prop :=
  let '(c, a, o, m) := x in fst y = c /\ u32 a /\ u32 o /\ Forall u8 m /\ a + Z.of_nat (length m) <= 2 ^ 32 /\
  exists sp, snd y = mkP2 a o (Z.of_nat (length m)) sp /\ sponge_chain permute m sp /\ sp <> [].
Lemma entry_hash p s i a : program_ok p -> step_ok p (s, i, a) ->
  match hash_call (s, i, a), p2_entry_of (s, i, a) with
  | Some x, Some y => call_entry x y | None, None => True | _, _ => False end.
Proof.
  intros PO [OK (s' & X)]. destruct (execute_inv _ _ _ _ _ _ _ OK PO X) as (C & IO & a0 & s0 & D & F & -> & W & E).
  unfold hash_call, p2_entry_of. assert (E1 : poseidon2 a = poseidon2 a0) by (rewrite E; reflexivity). rewrite E1. clear E E1 X W.
  case_bool_decide as Q; cbn [andb].
  - unfold dispatch in D. rewrite Q in D. rewrite ecall_cases in D by auto. cbv zeta in D.
    destruct (Z.eqb_spec (reg s REG_A0) 0) as [E0|]. { injection D as <- <-. rewrite E0. exact I. }
    repeat match type of D with (if reg s REG_A0 =? ?k then ecall_read _ ?o else _) = _ =>
      destruct (Z.eqb_spec (reg s REG_A0) k) as [E0|]; [destruct (ecall_read_frame s o OK ltac:(discriminate)) as [(x & Y)|(data & s1 & EF & FO & Y & _)]; rewrite D in Y; [discriminate|]; injection Y as -> ->; rewrite E0; exact I|] end.
    destruct (Z.eqb_spec (reg s REG_A0) 1); [destruct (ecall_panic_not_ok _ _ _ D)|].
    destruct (Z.eqb_spec (reg s REG_A0) 3) as [E0|].
    + pose proof D as D'. destruct (ecall_poseidon2_frame permute s OK) as [(q & Y)|(h & sp & EH & _ & Y & _)]; rewrite D in Y; [discriminate|]. injection Y as -> ->. cbn [poseidon2].
      fold (message s) in EH. destruct (hash_spec permute utf8_ok _ _ _ EH) as (SC & _ & Hne). unfold ecall_poseidon2 in D'.
      assert (R1 : is_reg REG_A1) by (unfold is_reg, REG_A1; lia). assert (R2 : is_reg REG_A2) by (unfold is_reg, REG_A2; lia). assert (R3 : is_reg REG_A3) by (unfold is_reg, REG_A3; lia).
      rewrite !get_reg_ok in D' by auto. cbn [rbind] in D'. pose proof (reg_u32 s REG_A1 OK R1) as U1. pose proof (reg_u32 s REG_A2 OK R2) as U2. pose proof (reg_u32 s REG_A3 OK R3) as U3.
      assert (LM : Z.of_nat (length (message s)) = reg s REG_A2). { unfold message. rewrite map_length, seq_length. unfold u32 in U2. lia. }
      destruct SC as [SL SC]. assert (M : reg s REG_A2 mod 8 = 0) by (rewrite <- LM, <- SL, Z.mul_comm; apply Z.mod_mul; lia).
      assert (Hp : 0 < reg s REG_A2) by (destruct sp; [congruence|]; cbn in SL; lia).
      rewrite (proj2 (Z.ltb_lt 0 _) Hp) in D'. cbn [andb] in D'. destruct (Z.ltb_spec 4294967296 (reg s REG_A1 + reg s REG_A2)); [discriminate|].
      unfold call_entry. cbn [fst snd]. rewrite LM. split; [reflexivity|]. split; [exact U1|]. split; [exact U3|]. split.
      { unfold message. apply List.Forall_forall. intros b I. apply in_map_iff in I as (k & <- & _). apply load_u8_u8, OK. }
      split; [lia|]. exists sp. split; [f_equal; lia|]. split; [split; [exact SL|exact SC]|exact Hne].
    + destruct (_ =? 10); [apply ecall_trace_log_ok in D as [-> _]; exact I|injection D as <- <-; exact I].
  - destruct IO as (H0 & H1 & H2 & HI). unfold dispatch in D. destruct (iop i) eqn:OP; try congruence;
      try (unfold register_op in D; rewrite !get_reg_ok in D by auto; cbn [rbind] in D; rewrite set_reg_ok in D by auto; cbn [rbind] in D; injection D as <- <-; exact I);
      try (unfold branch_op in D; rewrite !get_reg_ok in D by auto; cbn [rbind] in D; injection D as <- <-; exact I);
      try (unfold jalr in D; rewrite !get_reg_ok in D by auto; cbn [rbind] in D; destruct (set_reg _ _ _); cbn [rbind] in D; try discriminate; injection D as <- <-; exact I);
      try (unfold store in D; rewrite !get_reg_ok in D by auto; cbn [rbind] in D; destruct (store_bytes _ _); cbn [rbind] in D; try discriminate; injection D as <- <-; exact I);
      try (unfold memory_load in D; rewrite !get_reg_ok in D by auto; cbn [rbind] in D;
           match type of D with (let '(_, _) := ?f ?l in _) = _ => destruct (f l) end; rewrite set_reg_ok in D by auto; cbn [rbind] in D; injection D as <- <-; exact I).
Qed.
Lemma entries_calls p rows : program_ok p -> Forall (step_ok p) rows -> Forall2 call_entry (hash_calls rows) (omap p2_entry_of rows).
Proof.
  intros PO F. induction F as [|[[s i] a] l H F IH]; [constructor|]. pose proof (entry_hash p s i a PO H) as EH. unfold hash_calls in *.
  change (omap hash_call ((s, i, a) :: l)) with (match hash_call (s, i, a) with Some y => y :: omap hash_call l | None => omap hash_call l end).
  change (omap p2_entry_of ((s, i, a) :: l)) with (match p2_entry_of (s, i, a) with Some y => y :: omap p2_entry_of l | None => omap p2_entry_of l end).
  destruct (hash_call _), (p2_entry_of _); try contradiction; [constructor; assumption|exact IH].
Qed.

(** ** The rows of one call *)
Definition sp_row (c a o n : Z) (k : nat) (d : sponge_data) : sprow :=
  mkSpRow (c mod P) (b2z (k =? 0)%nat) (b2z (negb (k =? 0)%nat)) (a + 8 * Z.of_nat k) o (n - 8 * Z.of_nat k) (preimage d) (output d) (gen_output d).
Definition sp_rows (c : Z) (e : p2_entry) : list sprow :=
  map (fun '(k, d) => sp_row c (p2_addr e) (p2_output_addr e) (p2_len e) k d) (combine (seq 0 (length (p2_sponge e))) (p2_sponge e)).
Lemma unroll_rows_spec c o a n : forall l k, n = 8 * (Z.of_nat k + Z.of_nat (length l)) -> l <> [] -> a + n <= 2 ^ 32 ->
  unroll_rows c o (k =? 0)%nat (a + 8 * Z.of_nat k) (n - 8 * Z.of_nat k) l =
  if decide (a + n = 2 ^ 32) then Panic POverflow else Ok (map (fun '(k, d) => sp_row c a o n k d) (combine (seq k (length l)) l)).
Proof.
  induction l as [|d l IH]; intros k N NE B; [congruence|]. cbn [unroll_rows length] in *. destruct l as [|d' l].
  - cbn [length] in N. destruct (Z.leb_spec 4294967296 (a + 8 * Z.of_nat k + 8)).
    + rewrite decide_True by lia. reflexivity.
    + rewrite decide_False by lia. destruct (Z.ltb_spec (n - 8 * Z.of_nat k) 8); [lia|]. reflexivity.
  - cbn [length] in N. destruct (Z.leb_spec 4294967296 (a + 8 * Z.of_nat k + 8)); [lia|]. destruct (Z.ltb_spec (n - 8 * Z.of_nat k) 8); [lia|].
    specialize (IH (S k) ltac:(cbn [length]; lia) ltac:(discriminate) B). change (S k =? 0)%nat with false in IH.
    replace (a + 8 * Z.of_nat k + 8) with (a + 8 * Z.of_nat (S k)) by lia. replace (n - 8 * Z.of_nat k - 8) with (n - 8 * Z.of_nat (S k)) by lia. rewrite IH.
    destruct (decide _); [reflexivity|]. cbn [rbind]. reflexivity.
Qed.
Lemma unroll_entry x y : call_entry x y -> unroll_sponge_data (fst y) (snd y) =
  if decide (p2_addr (snd y) + p2_len (snd y) = 2 ^ 32) then Panic POverflow else Ok (sp_rows (fst y) (snd y)).
Proof.
  destruct x as [[[c a] o] m], y as [c' e]. intros (Ec & U1 & U3 & U & B & sp & Ee & [SL _] & NE). cbn [fst snd] in *. subst e c'. unfold unroll_sponge_data. cbn [p2_len p2_addr p2_output_addr p2_sponge].
  replace (Z.of_nat (length m) mod 8) with 0 by (rewrite <- SL, Z.mul_comm, Z.mod_mul by lia; reflexivity). cbn [Z.eqb negb].
  pose proof (unroll_rows_spec c o a (Z.of_nat (length m)) sp 0 ltac:(lia) NE B) as U'. cbn [Nat.eqb] in U'. replace (a + 8 * Z.of_nat 0) with a in U' by lia. replace (Z.of_nat (length m) - 8 * Z.of_nat 0) with (Z.of_nat (length m)) in U' by lia.
  rewrite U'. reflexivity.
Qed.
Definition ends_at_top (y : Z * p2_entry) : Prop := p2_addr (snd y) + p2_len (snd y) = 2 ^ 32.
Definition sp_blocks (l : list (Z * p2_entry)) : list sprow := flat_map (fun '(c, e) => sp_rows c e) l.
Lemma unroll_all_spec xs ys : Forall2 call_entry xs ys ->
  (Exists ends_at_top ys /\ unroll_all ys = Panic POverflow) \/ (~ Exists ends_at_top ys /\ unroll_all ys = Ok (sp_blocks ys)).
Proof.
  induction 1 as [|x [c e] xs ys H F IH]; [right; split; [intros Q; inversion Q|reflexivity]|]. cbn [unroll_all]. pose proof (unroll_entry _ _ H) as U. cbn [fst snd] in U. rewrite U.
  destruct (decide _) as [T|T]; [left; split; [constructor; exact T|reflexivity]|]. cbn [rbind]. destruct IH as [[IH1 ->]|[IH1 ->]].
  - left. split; [apply Exists_cons_tl, IH1|reflexivity].
  - right. split; [|reflexivity]. intros Q. inversion Q; subst; [apply T; assumption|apply IH1; assumption].
Qed.
Lemma top_calls xs ys : Forall2 call_entry xs ys -> Exists ends_at_top ys <-> exists c a o m, In (c, a, o, m) xs /\ a + Z.of_nat (length m) = 2 ^ 32.
Proof.
  induction 1 as [|[[[c a] o] m] [c' e] xs ys H F IH].
  - split; [intros Q; inversion Q|intros (c & a & o & m & [] & _)].
  - destruct H as (_ & _ & _ & _ & _ & sp & Ee & _). cbn in Ee. subst e. rewrite Exists_cons. unfold ends_at_top at 1. cbn [snd p2_addr p2_len]. rewrite IH. split.
    + intros [T|(c0 & a0 & o0 & m0 & I & T)]; [exists c, a, o, m; cbn; auto|exists c0, a0, o0, m0; cbn; auto].
    + intros (c0 & a0 & o0 & m0 & [I|I] & T); [injection I as <- <- <- <-; left; exact T|right; exists c0, a0, o0, m0; auto].
Qed.

(** ** Constraints *)
Definition spok (r r' : sprow) : Prop := all_zero (a_always sponge_air r r') /\ all_zero (a_transition sponge_air r r').
Lemma sat_pairs_first {R} (A : air R) (x : R) l : all_zero (a_first A x) -> (forall r, a_last A r = []) ->
  (forall r r', In (r, r') (adj ((x :: l) ++ [x])) -> all_zero (a_always A r r') /\ all_zero (a_transition A r r')) -> trace_sat A (x :: l).
Proof.
  intros F L H. constructor.
  - discriminate.
  - intros r E. cbn in E. injection E as <-. exact F.
  - intros k r r' E E'. apply H. rewrite <- windows_adj. eapply windows_In; eauto.
  - intros k r r' E E'. apply H. eapply (adj_lookup_In _ k); rewrite lookup_app_l; auto.
    + apply lookup_lt_Some in E'. lia.
    + apply lookup_lt_Some in E'. exact E'.
  - intros r _. rewrite L. constructor.
Qed.
(** local conditions of a row, and what the next row needs *)
Record row_ok (r : sprow) : Prop := {
  ro_init : bit (s_init r); ro_perm : bit (s_permute r); ro_gen : bit (s_gen r); ro_exe : bit (s_executed r);
  ro_dummy : s_executed r = 0 -> s_gen r = 0; ro_len : s_gen r = 1 -> s_len r = 8;
  ro_cap : s_init r = 1 -> forall k, (8 <= k < 12)%nat -> at_ (s_pre r) k = 0 }.
Definition starts (r : sprow) : Prop := s_permute r = 0.
Definition ends (r : sprow) : Prop := s_executed r = 0 \/ s_gen r = 1.
Definition continues (r r' : sprow) : Prop :=
  s_executed r = 1 /\ s_gen r = 0 /\ s_init r' = 0 /\ s_clk r' = s_clk r /\ s_len r = s_len r' + 8 /\ s_in r' = s_in r + 8 /\
  forall k, (8 <= k < 12)%nat -> at_ (s_pre r') k = at_ (s_post r) k.
Lemma spok_intro r r' : row_ok r -> row_ok r' -> (ends r /\ starts r') \/ continues r r' -> spok r r'.
Proof.
  intros [B1 B2 B3 B4 D L C] [B1' B2' B3' B4' _ _ _] K. unfold spok. cbn [a_always a_transition sponge_air].
  assert (NS : s_gen r = 1 -> not_start r' = 0).
  { intros G. destruct K as [[_ S]|(X & G' & _)]; [|lia]. unfold starts in S. unfold not_start, bit in *. rewrite S. destruct B1' as [-> | ->]; reflexivity. }
  split.
  - apply List.Forall_app. split; [|apply List.Forall_app; split].
    + repeat (apply List.Forall_cons; [first [apply bin_bit; assumption|apply fz_eq]|]); [| | |apply List.Forall_nil].
      * destruct B4 as [Q|Q]; rewrite Q; [rewrite (D Q); reflexivity|reflexivity].
      * destruct B3 as [Q|Q]; rewrite Q; [reflexivity|rewrite (L Q); reflexivity].
      * destruct B3 as [Q|Q]; [rewrite Q; reflexivity|rewrite (NS Q); lia].
    + apply List.Forall_forall. intros z I. apply in_map_iff in I as (k & <- & I). apply in_seq in I. apply fz_eq. destruct B1 as [Q|Q]; [rewrite Q; reflexivity|rewrite (C Q k) by lia; lia].
    + apply List.Forall_forall. intros z I. apply in_map_iff in I as (k & <- & I). apply in_seq in I. apply fz_eq. destruct K as [[_ S]|(_ & _ & _ & _ & _ & _ & Q)]; [rewrite S; lia|rewrite Q by lia; lia].
  - destruct K as [[E S]|(X & G & I & Ck & Ln & In_ & _)].
    + assert (Z0 : (1 - s_gen r) * (s_permute r + s_init r) = 0) by (destruct E as [E|E]; unfold s_executed in *; [replace (s_permute r + s_init r) with 0 by lia; lia|rewrite E; lia]).
      rewrite Z0, S. repeat (apply List.Forall_cons; [apply fz_eq; lia|]). apply List.Forall_nil.
    + rewrite Ck, Ln, In_. repeat (apply List.Forall_cons; [apply fz_eq; lia|]). apply List.Forall_nil.
Qed.
Lemma row_ok_default : row_ok sp_default.
Proof. constructor; cbn; unfold bit, s_executed; cbn; try lia. Qed.
Lemma sp_rows_lookup c e k : sp_rows c e !! k = option_map (sp_row c (p2_addr e) (p2_output_addr e) (p2_len e) k) (p2_sponge e !! k).
Proof. unfold sp_rows. rewrite map_lookup, combine_seq_lookup. destruct (p2_sponge e !! k); reflexivity. Qed.
Lemma sponge12 m sp : sponge_chain permute m sp -> forall k d, sp !! k = Some d -> length (preimage d) = 12%nat /\ state12 (output d).
Proof.
  intros [SL SC]. induction k as [|k IH]; intros d E; destruct (SC _ _ E) as (P1 & P2 & _).
  - rewrite P2. split; [|apply permute12]. rewrite P1, app_length, take_length, drop_length. apply lookup_lt_Some in E. cbn [length repeat drop]. lia.
  - rewrite P2. split; [|apply permute12]. assert (Hk : (k < length sp)%nat) by (apply lookup_lt_Some in E; lia). apply lookup_lt_is_Some in Hk as [d' E']. rewrite E' in P1.
    destruct (IH d' E') as [_ [L _]]. rewrite P1, app_length, take_length, !drop_length, L. apply lookup_lt_Some in E. lia.
Qed.
Lemma sponge_pre12 m sp : Forall u8 m -> sponge_chain permute m sp -> forall k d, sp !! k = Some d -> state12 (preimage d).
Proof.
  intros U SC k d E. split; [apply (sponge12 m sp SC k d E)|]. pose proof SC as SC'. destruct SC as [SL SC]. destruct (SC _ _ E) as (P1 & _). rewrite P1. apply List.Forall_app. split.
  - apply Forall_take, Forall_drop. eapply List.Forall_impl; [|exact U]. unfold u8, canon. intros b Hb. assert (256 < P) by reflexivity. lia.
  - destruct k as [|k]; [apply Forall_drop; repeat (apply List.Forall_cons; [unfold canon; split; [lia|reflexivity]|]); apply List.Forall_nil|].
    destruct (sp !! k) as [d'|] eqn:E'; [|apply List.Forall_nil]. apply Forall_drop. apply (sponge12 m sp SC' k d' E').
Qed.
Lemma drop8_nth (a b : list Z) k : length a = 8%nat -> (8 <= k)%nat -> at_ (a ++ drop 8 b) k = at_ b k.
Proof. intros L K. unfold at_. rewrite app_nth2 by lia. rewrite L. rewrite <- (take_drop 8 b) at 2. destruct (le_lt_dec (length b) 8) as [S|S].
  - rewrite (drop_ge b 8) by exact S. rewrite app_nil_r. rewrite !nth_overflow; auto; [rewrite take_length; lia|cbn; lia].
  - rewrite app_nth2 by (rewrite take_length; lia). rewrite take_length. f_equal. lia.
Qed.
Lemma block_rows x y : call_entry x y -> forall k r, sp_rows (fst y) (snd y) !! k = Some r -> row_ok r /\ (k = 0%nat -> starts r) /\ (S k = length (sp_rows (fst y) (snd y)) -> ends r) /\
  forall r', sp_rows (fst y) (snd y) !! S k = Some r' -> continues r r'.
Proof.
  destruct x as [[[c a] o] m], y as [c' e]. intros (Ec & U1 & U3 & U & B & sp & Ee & SC0 & NE). cbn [fst snd] in *. subst e c'. intros k r. rewrite !sp_rows_lookup. cbn [p2_len p2_addr p2_output_addr p2_sponge].
  destruct (sp !! k) as [d|] eqn:Ed; [|discriminate]. cbn [option_map]. intros Q. injection Q as <-. pose proof SC0 as [SL SC]. destruct (SC _ _ Ed) as (P1 & P2 & P3).
  assert (Lr : length (sp_rows c (mkP2 a o (Z.of_nat (length m)) sp)) = length sp) by (unfold sp_rows; rewrite map_length, combine_length, seq_length; cbn; lia). rewrite Lr.
  assert (Hk : (k < length sp)%nat) by (apply lookup_lt_Some in Ed; exact Ed).
  assert (Ltake : forall j, (j < length sp)%nat -> length (take 8 (drop (8 * j) m)) = 8%nat) by (intros j Hj; rewrite take_length, drop_length; lia).
  split; [|split; [|split]].
  - unfold sp_row. constructor; cbn; unfold s_executed, bit; cbn.
    + destruct k; cbn; auto. + destruct k; cbn; auto. + rewrite P3. destruct (_ =? _)%nat; auto. + destruct k; cbn; auto. + destruct k; cbn; lia.
    + rewrite P3. destruct (Nat.eqb_spec (S k) (length sp)); lia.
    + destruct k as [|k]; cbn; [|lia]. intros _ j Hj. change (at_ (preimage d) j = 0). rewrite P1, drop8_nth by (try apply Ltake; lia). unfold at_. rewrite nth_repeat. reflexivity.
  - intros ->. reflexivity.
  - intros Q. right. cbn. rewrite P3, Q, Nat.eqb_refl. reflexivity.
  - intros r'. destruct (sp !! S k) as [d'|] eqn:Ed'; [|discriminate]. cbn. intros Q. injection Q as <-. assert (Hk' : (S k < length sp)%nat) by (apply lookup_lt_Some in Ed'; exact Ed').
    destruct (SC _ _ Ed') as (P1' & _ & _). rewrite Ed in P1'. unfold continues, sp_row, s_executed. cbn. split; [destruct k; reflexivity|]. split; [rewrite P3; destruct (Nat.eqb_spec (S k) (length sp)); [lia|reflexivity]|].
    split; [reflexivity|]. split; [reflexivity|]. split; [lia|]. split; [lia|]. intros j Hj. change (at_ (preimage d') j = at_ (output d) j). rewrite P1', drop8_nth by (try apply Ltake; lia). reflexivity.
Qed.
(** a table made of blocks and dummies *)
Lemma chain_blocks ys : forall xs, Forall2 call_entry xs ys -> forall y suf, row_ok y -> starts y -> (forall r r', In (r, r') (adj (y :: suf)) -> spok r r') ->
  exists h t, sp_blocks ys ++ y :: suf = h :: t /\ row_ok h /\ starts h /\ (forall r r', In (r, r') (adj (h :: t)) -> spok r r').
Proof.
  induction ys as [|[c e] ys IH]; intros xs F y suf Ry Sy Hy; [exists y, suf; auto|]. inversion F as [|x ? xs' ? H F']; subst.
  destruct (IH xs' F' y suf Ry Sy Hy) as (h & t & Eh & Rh & Sh & Hh). unfold sp_blocks in *. cbn [flat_map]. rewrite <- app_assoc, Eh.
  pose proof (block_rows _ _ H) as BR. cbn [fst snd] in BR. set (b := sp_rows c e) in *.
  assert (Lb : b <> []). { destruct x as [[[? ?] ?] m]. destruct H as (_ & _ & _ & _ & _ & sp & Ee & _ & NE). cbn in Ee. subst e. unfold b, sp_rows. cbn. destruct sp; [congruence|discriminate]. }
  destruct b as [|h0 b0] eqn:Eb; [congruence|]. exists h0, (b0 ++ h :: t). split; [reflexivity|]. destruct (BR 0%nat h0 eq_refl) as (R0 & S0 & _). split; [exact R0|]. split; [apply S0; reflexivity|].
  destruct (@exists_last _ (h0 :: b0) ltac:(discriminate)) as (l & z & Ez). change (h0 :: b0 ++ h :: t) with ((h0 :: b0) ++ h :: t). rewrite Ez, adj_app. intros r r' I. apply in_app_or in I as [I|I].
  - apply adj_In_lookup in I as (k & E1 & E2). rewrite <- Ez in E1, E2. destruct (BR k r E1) as (R1 & _ & _ & C). destruct (BR (S k) r' E2) as (R2 & _). apply spok_intro; auto.
  - destruct I as [I|I].
    + injection I as <- <-. assert (E1 : (h0 :: b0) !! length l = Some z) by (rewrite Ez, lookup_app_r, Nat.sub_diag by lia; reflexivity). destruct (BR _ z E1) as (R1 & _ & En & _).
      apply spok_intro; auto. left. split; [|exact Sh]. apply En. rewrite Ez, app_length. cbn. lia.
    + apply Hh, I.
Qed.
Lemma adj_dummies n x r r' : row_ok x -> starts x -> In (r, r') (adj (repeat sp_default n ++ [x])) -> spok r r'.
Proof.
  intros Rx Sx. induction n as [|n IH]; [intros []|]. cbn [repeat app]. destruct n as [|n].
  - cbn. intros [I|[]]. injection I as <- <-. apply spok_intro; auto using row_ok_default. left. split; [left; reflexivity|exact Sx].
  - cbn [repeat app] in *. rewrite adj_cons. intros [I|I]; [|apply IH, I]. injection I as <- <-. apply spok_intro; auto using row_ok_default. left. split; [left; reflexivity|reflexivity].
Qed.
Lemma sponge_sat xs ys : Forall2 call_entry xs ys -> trace_sat sponge_air (pad_with sp_default (sp_blocks ys)).
Proof.
  intros F. unfold pad_with. set (n := (padded_len _ - _)%nat).
  assert (NE : sp_blocks ys ++ repeat sp_default n <> []).
  { intros Q. apply (f_equal length) in Q. rewrite app_length, repeat_length in Q. unfold n in Q. cbn in Q. pose proof (padded_ge (length (sp_blocks ys))).
    assert (length (sp_blocks ys) = 0%nat) as Q0 by lia. rewrite Q0 in Q. cbn in Q. vm_compute in Q. discriminate. }
  destruct (sp_blocks ys ++ repeat sp_default n) as [|x l] eqn:E; [congruence|].
  assert (Hx : row_ok x /\ starts x).
  { destruct ys as [|y0 ys0].
    - cbn in E. destruct n; [discriminate|]. injection E as <- _. split; [apply row_ok_default|reflexivity].
    - destruct (chain_blocks (y0 :: ys0) xs F sp_default [] row_ok_default eq_refl ltac:(intros r r' [])) as (h & t & Eh & Rh & Sh & _).
      destruct (sp_blocks (y0 :: ys0)) as [|b0 b] eqn:Eb.
      + cbn in E. destruct n; [discriminate|]. injection E as <- _. split; [apply row_ok_default|reflexivity].
      + cbn in Eh, E. injection Eh as -> _. injection E as -> _. auto. }
  destruct Hx as [Rx Sx]. apply sat_pairs_first.
  - apply List.Forall_cons; [|apply List.Forall_nil]. apply fz_eq. unfold not_start. unfold starts in Sx. rewrite Sx. destruct (ro_init _ Rx) as [-> | ->]; reflexivity.
  - reflexivity.
  - rewrite <- E, <- app_assoc. destruct n as [|n0].
    + cbn [repeat app]. destruct (chain_blocks ys xs F x [] Rx Sx ltac:(intros r r' [])) as (h & t & Eh & _ & _ & Hh). rewrite Eh. exact Hh.
    + cbn [repeat app]. destruct (chain_blocks ys xs F sp_default (repeat sp_default n0 ++ [x]) row_ok_default eq_refl) as (h & t & Eh & _ & _ & Hh).
      * intros r r'. apply (adj_dummies (S n0)); assumption.
      * rewrite Eh. exact Hh.
Qed.
End WithHash.
