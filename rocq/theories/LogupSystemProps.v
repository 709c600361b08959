(** C82: the whole system of lookups compared through random challenges; C79 and C80 for a verifier that compares the tables
    only in this way. *)
From Verif Require Export LogupSystem SoundSpec StateSpec DeviceSpec.
From Verif Require Import ProofGenSpec ProofGenTables ProofGenRun RegGenLook RegGenRun RegGenProofs RegGenProps MemGenProofs MemGenSteps MemGenAccs MemGenLook MemGenRun MemGenProps StateSpec DeviceSpec DeviceProofs WordProps StateProps PoseidonSpec PoseidonPerm PoseidonGen PoseidonLook PoseidonProps DeviceProps CircuitProps DecodeProofs LoadModel LoadProofs TableProofs CpuTrace CpuComplete CpuGen StateProofs WordProofs StepProofs ExecProofs RunProofs RunnerProps.
From Verif Require Import SoundSpec ProofGenSpec ProofGenTables ProofGenRun ProofGenProps RegGenLook RegGenRun RegGenProps MemGenProofs MemGenProps StateSpec DeviceSpec DeviceProofs WordProps StateProps PoseidonSpec PoseidonProps DeviceProps CircuitProps RunProofs RunnerProps LoadModel LoadProofs SoundSpec RomProofs StateModel WordProps RunProofs RunnerProps CpuTrace ProofGenTables ProofGenProps PoseidonProps ProofGenRun SoundRun.
From Verif Require Import LogupSystemProofs LogupProps ProofGenProps SoundProps.
Open Scope Z_scope.
#[local] Opaque finv.

(** * C82 Random challenges for the whole system *)
(** Tables that do not balance, or do not show the claimed public values: of the P^(2k) lists of k challenges, at most
    (R * 26 * P)^k let the verifier accept. *)
Theorem C82_verifier_sound : forall T events casts R k, tables_shaped T -> rows_bounded R T events casts -> ~ balanced T events casts ->
  at_most ((R * 26 * P) ^ Z.of_nat k) k (system_accepted T events casts).
Proof. intros. apply unbalanced_bound; assumption. Qed.
(** Tables that balance are accepted for every challenge that compresses no row to zero. *)
Theorem C82_balanced_accepted : forall T events casts c, balanced T events casts -> system_nonzero T events casts c -> system_accepted T events casts c.
Proof. exact balanced_accepted. Qed.

(** * C79, with the lookups compared through challenges *)
Theorem C79_compressed_partial : forall K utf8_ok limit p fuel t rec, (0 < k_half K)%nat ->
  good_program p -> decoded_code p -> ro_memory p ##ₘ rw_memory p -> good_tapes t ->
  length (events_commitment_tape (state_new p t)) = 32%nat -> length (cast_list_commitment_tape (state_new p t)) = 32%nat ->
  step (poseidon2_permutation K) utf8_ok limit p fuel (state_new p t) = Ok rec ->
  let rows := run_rows rec in
  Z.of_nat (length (executed rec)) <= 2 ^ 30 - 2 ->
  (forall s i a, In (s, i, a) rows -> provable_step s i) ->
  (forall o, In o tape_order -> no_stall (tape_reads o rows)) ->
  (forall o c a d, o = StoreEventsCommitmentTape \/ o = StoreCastListCommitmentTape -> In (c, a, d) (tape_reads o rows) -> length d = 32%nat) ->
  hashes_fit rows ->
  let events := events_commitment_tape (state_new p t) in
  let casts := cast_list_commitment_tape (state_new p t) in
  exists T, generate_traces K p rec = Ok T /\ constraints_hold K p T /\
    forall c, system_nonzero T events casts c -> system_accepted T events casts c.
Proof.
  intros K utf8_ok limit p fuel t rec HK GP DC DJ GT L1 L2 R rows SH PR NS CR HF events casts.
  destruct (C79_generated_partial K utf8_ok limit p fuel t rec HK GP DC DJ GT L1 L2 R SH PR NS CR HF) as (T & G & C & L & [Q1 Q2]).
  exists T. split; [exact G|]. split; [exact C|]. intros c N. apply balanced_accepted; [|exact N]. split; [exact L|]. split; assumption.
Qed.

(** * C80, with the lookups compared through challenges *)
(** What the verifier accepts at one challenge: as [proof_accepted], with the comparison of sums of fractions in place of the
    balance of the lookups. *)
Record accepted_at (K : p2consts) (p : program) (events casts : list Z) (T : tables) (c : challenge) : Prop := {
  aa_constraints : constraints_hold K p T;
  aa_rom : generate_program_rom_trace p = Ok (t_rom T);
  aa_elf : t_elf T = generate_memory_init_trace p;
  aa_regs : t_reginit T = pad_last (mkRegInit 0 0) (map (fun k => mkRegInit (Z.of_nat k) 0) (seq 1 31));
  aa_across : system_accepted T events casts c }.
(** Tables that do not describe a halting run of the program are accepted for at most (R * 26 * P)^k lists of k challenges. *)
Theorem C80_challenges_partial : forall K p events casts T R k,
  tables_shaped T -> 0 <= R -> rows_bounded R T events casts -> tables_typed T -> gaps_closed p T -> no_devices T ->
  good_program p -> decoded_code p -> code_placed p ->
  forall permute utf8_ok t, good_tapes t ->
  ~ (exists fuel rec, step permute utf8_ok None p fuel (state_new p t) = Ok rec /\ halted (last_state rec) = true /\ describes T rec) ->
  at_most ((R * 26 * P) ^ Z.of_nat k) k (accepted_at K p events casts T).
Proof.
  intros K p events casts T R k SH HR RB TY GC ND GP DC CP permute utf8_ok t GT NO.
  assert (U : forall c, accepted_at K p events casts T c -> ~ balanced T events casts).
  { intros c [A1 A2 A3 A4 _] (B1 & B2 & B3). apply NO. eapply (C80_execution_partial K p events casts T); eauto. constructor; assumption. }
  destruct (balanced_or T events casts) as [B|B].
  - apply none_bound; [pose proof P_nonneg; nia|]. intros c A. exact (U c A B).
  - eapply at_most_weaken; [apply (unbalanced_bound T events casts R k SH RB)|lia|intros c [_ _ _ _ A]; exact A].
    intros (L & E). rewrite <- system_lookups_hold in L. rewrite <- system_publics_hold in E. destruct B as [(a & b & I & N)|(e & vs & I & N)].
    + rewrite List.Forall_forall in L. exact (N (L _ I)).
    + rewrite List.Forall_forall in E. exact (N (E _ I)).
Qed.

(** ** Concrete cases: the tables of a run *)
Definition nonzerob (c : challenge) (ts : list entries) : bool := forallb (fun e => forallb (fun '(t, _) => negb (combine c t mod P =? 0)) e) ts.
Lemma nonzerob_ok c ts : nonzerob c ts = true -> nonzero_denominators c ts.
Proof.
  unfold nonzerob, nonzero_denominators, nonzero. rewrite forallb_forall. intros H. apply List.Forall_forall. intros e I. specialize (H e I). rewrite forallb_forall in H.
  apply List.Forall_forall. intros [t f] J. specialize (H _ J). cbn beta iota in H. unfold fzero. lia.
Qed.
Definition system_check (T : tables) (events casts : list Z) (c : challenge) (R : Z) : bool :=
  forallb (fun r => (length (q_input r ++ last_state_of (q_second r)) =? 24)%nat) (t_perm T) &&
  forallb (fun r => (length (s_pre r) =? 12)%nat && (length (s_post r) =? 12)%nat) (t_sponge T) &&
  forallb (fun r => (length (o_fields r) =? 4)%nat) (t_ob T) &&
  forallb (fun '(a, b) => total_rows (a ++ b) <=? R) (system_lookups T) && forallb (fun '(e, vs) => total_rows [e; as_entries vs] <=? R) (system_publics T events casts) &&
  forallb (fun '(a, b) => nonzerob c (a ++ b)) (system_lookups T) && forallb (fun '(e, vs) => nonzerob c [e; as_entries vs]) (system_publics T events casts).
Lemma system_check_ok T events casts c R : system_check T events casts c R = true ->
  tables_shaped T /\ rows_bounded R T events casts /\ system_nonzero T events casts c.
Proof.
  unfold system_check. rewrite !andb_true_iff, !forallb_forall. intros ((((((A & B) & C) & D) & E) & F) & G). split; [|split].
  - constructor; apply List.Forall_forall; intros r I.
    + apply Nat.eqb_eq, A, I.
    + specialize (B r I). apply andb_true_iff in B as [B1 B2]. rewrite Nat.eqb_eq in B1, B2. auto.
    + apply Nat.eqb_eq, C, I.
  - split; apply List.Forall_forall; intros [x y] I; [specialize (D _ I); cbn beta iota in D; lia|specialize (E _ I); cbn beta iota in E; lia].
  - split; apply List.Forall_forall; intros [x y] I; apply nonzerob_ok; [exact (F _ I)|exact (G _ I)].
Qed.
Example C82_tables : exists rec T, prove_run = Ok rec /\ generate_traces toyK prove_prog rec = Ok T /\
  tables_shaped T /\ rows_bounded 4000 T (raw_events_commitment demo_tapes) (raw_cast_list_commitment demo_tapes) /\
  system_nonzero T (raw_events_commitment demo_tapes) (raw_cast_list_commitment demo_tapes) ex_challenge /\
  ~ balanced T (repeat 255 32) (raw_cast_list_commitment demo_tapes).
Proof.
  assert (H : match prove_run with Ok rec => match generate_traces toyK prove_prog rec with Ok T =>
      system_check T (raw_events_commitment demo_tapes) (raw_cast_list_commitment demo_tapes) ex_challenge 4000 &&
      negb (ctl_check (tc_event_public (t_tc T)) (public_values (repeat 255 32))) | _ => false end | _ => false end = true) by (vm_compute; reflexivity).
  destruct prove_run as [rec| |] eqn:R; try discriminate H. destruct (generate_traces toyK prove_prog rec) as [T| |] eqn:G; try discriminate H.
  apply andb_true_iff in H as [H1 H2]. destruct (system_check_ok _ _ _ _ _ H1) as (A & B & C). exists rec, T. repeat (split; [first [reflexivity|assumption]|]).
  intros (_ & E & _). apply ctl_check_ok in E. rewrite E in H2. discriminate H2.
Qed.
(** 2^31 rows, two challenges: fewer than one list in 2^50 *)
Example C82_negligible T events casts : tables_shaped T -> rows_bounded (2 ^ 31) T events casts -> ~ balanced T events casts ->
  exists n, at_most n 2 (system_accepted T events casts) /\ n * 2 ^ 50 < (P * P) ^ 2.
Proof.
  intros S B H. exists ((2 ^ 31 * 26 * P) ^ Z.of_nat 2). split; [apply C82_verifier_sound; assumption|]. vm_compute. reflexivity.
Qed.

(** Tables that satisfy the conditions of C80_challenges_partial and describe no run of the program: those of a run, without
    their skeleton. *)
Definition no_skeleton (T : tables) : tables :=
  mkTables (t_cpu T) [] (t_add T) (t_blt T) (t_xor T) (t_shift T) (t_rom T) (t_mult T) (t_elf T) (t_zero T) (t_half T) (t_full T)
    (t_tape T) (t_sponge T) (t_ob T) (t_perm T) (t_mem T) (t_reginit T) (t_zread T) (t_zwrite T) (t_reg T) (t_rc T) (t_u8 T) (t_tc T).
Example C80_challenges_ex : exists T, tables_shaped T /\ rows_bounded 4000 T (repeat 0 32) (repeat 0 32) /\ tables_typed T /\ gaps_closed sound_prog T /\ no_devices T /\ good_program sound_prog /\ decoded_code sound_prog /\ code_placed sound_prog /\ good_tapes demo_tapes /\
  forall permute utf8_ok, ~ (exists fuel rec, step permute utf8_ok None sound_prog fuel (state_new sound_prog demo_tapes) = Ok rec /\ halted (last_state rec) = true /\ describes T rec).
Proof.
  assert (H : match sound_run with Ok rec => match generate_traces toyK sound_prog rec with Ok T =>
      system_check (no_skeleton T) (repeat 0 32) (repeat 0 32) ex_challenge 4000 && typedb (no_skeleton T) && gapsb sound_prog (no_skeleton T) && devicesb (no_skeleton T) &&
      forallb (fun '(_, i, _) => fieldsb (iargs i)) (run_rows rec) | _ => false end | _ => false end = true) by (vm_compute; reflexivity).
  destruct sound_run as [rec| |] eqn:R; try discriminate H. destruct (generate_traces toyK sound_prog rec) as [T| |] eqn:G; try discriminate H.
  apply andb_true_iff in H as [H FI]. apply andb_true_iff in H as [H DV]. apply andb_true_iff in H as [H GA]. apply andb_true_iff in H as [SC TY].
  destruct (system_check_ok _ _ _ _ _ SC) as (A & B & _).
  assert (GC : t_cpu (no_skeleton T) = generate_cpu_trace (run_rows rec)).
  { clear - G. unfold generate_traces in G. cbv zeta in G. destruct (generate_add_trace _) as [adds| |]; try discriminate G. cbn [rbind] in G. destruct (generate_blt_trace _) as [blts| |]; try discriminate G. cbn [rbind] in G.
    destruct (generate_program_rom_trace sound_prog) as [rom| |] eqn:ROM; try discriminate G. cbn [rbind] in G. destruct (generate_sponge_trace _) as [sp| |]; try discriminate G. cbn [rbind] in G.
    destruct (generate_register_trace _) as [[[zr zw] regs]| |]; try discriminate G. cbn [rbind] in G. destruct (generate_rangecheck_trace _) as [rc| |]; try discriminate G. cbn [rbind] in G. destruct (generate_rangecheck_u8_trace _ _) as [u8s| |]; try discriminate G. cbn [rbind] in G.
    injection G as <-. reflexivity. }
  exists (no_skeleton T). split; [exact A|]. split; [exact B|]. split; [apply typedb_ok, TY|]. split; [eapply gapsb_ok; eauto|]. split; [apply devicesb_ok, DV|].
  split; [exact sound_good|]. split; [exact sound_decoded|]. split; [exact sound_placed|]. split; [exact demo_tapes_good|].
  intros permute utf8_ok (fuel & rec' & E & HL & D). apply run_first in E. destruct D as [D _ _ _ _ _]. cbn in D. apply map_eq_nil in D. destruct rec' as [ex ls]. cbn in D. subst ex. cbn in E. injection E as E.
  cbn [last_state] in HL. rewrite E in HL. vm_compute in HL. discriminate HL.
Qed.

Print Assumptions C82_verifier_sound.
Print Assumptions C82_balanced_accepted.
Print Assumptions C79_compressed_partial.
Print Assumptions C80_challenges_partial.
