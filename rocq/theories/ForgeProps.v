(** C80: what a proof shows. Refutations for whole sets of tables. *)
From Verif Require Import SoundSpec ProofGenSpec ProofGenTables ProofGenRun ProofGenProps RegGenLook RegGenRun RegGenProps MemGenProofs MemGenProps StateSpec DeviceSpec DeviceProofs WordProps StateProps PoseidonSpec PoseidonProps DeviceProps CircuitProps RunProofs RunnerProps LoadModel LoadProofs.
Open Scope Z_scope.

(** Loads a byte >= 128 and panics if it is negative *)
Definition lb_rvs (u : bool) : list rv32 := [ Load wB u 5 0 100; Branch cGE 5 0 12; AluI iADDI 10 0 1; Ecall 0 0 ].
Definition lb_prog (u : bool) : program := program_create [(100, 200)] [] (exec_code (imap (fun k => lower (4 * Z.of_nat k)) (lb_rvs u))).
Definition lb_run (u : bool) := step (poseidon2_permutation toyK) (fun _ => true) None (lb_prog u) 10 (state_new (lb_prog u) demo_tapes).
Lemma lb_never permute utf8_ok limit fuel t rec : step permute utf8_ok limit (lb_prog false) fuel (state_new (lb_prog false) t) <> Ok rec.
Proof.
  intros R.
  do 3 (apply run_unfold in R as [[H _]|(_ & ? & ? & ? & s1 & ? & _ & X & R & _)]; [discriminate H|]; vm_compute in X; injection X as _ _ X; subst s1).
  apply run_unfold in R as [[H _]|(_ & ? & ? & ? & s1 & ? & _ & X & R & _)]; [discriminate H|]; vm_compute in X. destruct (utf8_ok []); discriminate X.
Qed.
Lemma lb_good u : good_program (lb_prog u).
Proof.
  constructor.
  - unfold u32; cbn; lia.
  - apply small_bytes. repeat (apply List.Forall_cons; [unfold u32, u8; cbn; lia|]); apply List.Forall_nil.
  - apply small_bytes. apply List.Forall_nil.
  - destruct u; apply map_Forall_to_list; [change (map_to_list (ro_code (lb_prog true))) with (ltac:(let v := eval vm_compute in (map_to_list (ro_code (lb_prog true))) in exact v))|change (map_to_list (ro_code (lb_prog false))) with (ltac:(let v := eval vm_compute in (map_to_list (ro_code (lb_prog false))) in exact v))];
      (repeat (apply List.Forall_cons; [unfold instruction_ok, is_reg, u32 in *; cbn; lia|]); apply List.Forall_nil).
Qed.
Lemma lb_decoded u : decoded_code (lb_prog u).
Proof. apply (decodedb_ok _ (map RvSpec.encode (lb_rvs u ++ [AluI iADDI 10 0 0; Ecall 0 0]))). destruct u; vm_compute; reflexivity. Qed.
Definition lb_check (rec : record) : bool :=
  let rows := run_rows rec in
  (length (executed rec) =? 4)%nat && forallb (fun '(s, i, _) => provable_stepb s i) rows && forallb (fun o => (length (tape_reads o rows) =? 0)%nat) tape_order && (length (hash_calls rows) =? 0)%nat &&
  bool_decide (map (fun r => (ri_addr r, ri_value r)) (generate_reginit_trace rec) = map (fun r => (ri_addr r, ri_value r)) (pad_last (mkRegInit 0 0) (map (fun k => mkRegInit (Z.of_nat k) 0) (seq 1 31)))).

(** * C80 A proof shows an execution *)
(** The claim fails for whole proofs: this program panics on every input, so it never halts, and yet tables that the
    verifier accepts for it exist: those of the program that loads the byte unsigned. *)
Theorem C80_signed_load_refuted : exists K p T, good_program p /\ decoded_code p /\ ro_memory p ##ₘ rw_memory p /\
  proof_accepted K p (repeat 0 32) (repeat 0 32) T /\
  forall permute utf8_ok limit fuel t rec, step permute utf8_ok limit p fuel (state_new p t) <> Ok rec.
Proof.
  assert (H : match lb_run true with Ok rec => lb_check rec | _ => false end = true) by (vm_compute; reflexivity).
  destruct (lb_run true) as [rec| |] eqn:R; try discriminate H. unfold lb_check in H. cbv zeta in H. rewrite !andb_true_iff in H. destruct H as ((((H1 & H2) & H3) & H4) & H5).
  rewrite forallb_forall in H2, H3. apply Nat.eqb_eq in H1, H4. apply bool_decide_eq_true in H5.
  assert (NR : forall o, In o tape_order -> tape_reads o (run_rows rec) = []) by (intros o I; apply length_zero_iff_nil, Nat.eqb_eq, H3, I).
  destruct (C79_generated_partial toyK (fun _ => true) None (lb_prog true) 10 demo_tapes rec) as (T & G & C & L & [Q1 Q2]).
  - cbn. lia.
  - apply lb_good.
  - apply lb_decoded.
  - apply map_disjoint_empty_r.
  - exact demo_tapes_good.
  - reflexivity.
  - reflexivity.
  - exact R.
  - rewrite H1. vm_compute. discriminate.
  - intros s i a I. apply provable_stepb_ok. exact (H2 _ I).
  - intros o I. apply few_reads. rewrite (NR o I). cbn. lia.
  - intros o c a d O I. rewrite NR in I by (destruct O as [-> | ->]; cbn; auto 10). destruct I.
  - intros c a o m I. apply length_zero_iff_nil in H4. rewrite H4 in I. destruct I.
  - exists toyK, (lb_prog false), T. split; [apply lb_good|]. split; [apply lb_decoded|]. split; [apply map_disjoint_empty_r|]. split; [|exact lb_never].
    unfold generate_traces in G. cbv zeta in G. destruct (generate_add_trace _) as [adds| |]; try discriminate G. cbn [rbind] in G. destruct (generate_blt_trace _) as [blts| |]; try discriminate G. cbn [rbind] in G.
    destruct (generate_program_rom_trace (lb_prog true)) as [rom| |] eqn:ROM; try discriminate G. cbn [rbind] in G. destruct (generate_sponge_trace _) as [sp| |]; try discriminate G. cbn [rbind] in G.
    destruct (generate_register_trace _) as [[[zr zw] regs]| |]; try discriminate G. cbn [rbind] in G. destruct (generate_rangecheck_trace _) as [rc| |]; try discriminate G. cbn [rbind] in G. destruct (generate_rangecheck_u8_trace _ _) as [u8s| |]; try discriminate G. cbn [rbind] in G. injection G as <-.
    constructor.
    + destruct C. constructor; auto.
    + exact L.
    + cbn [t_rom]. etransitivity; [|exact ROM]. vm_compute. reflexivity.
    + reflexivity.
    + cbn [t_reginit]. revert H5. generalize (pad_last (mkRegInit 0 0) (map (fun k => mkRegInit (Z.of_nat k) 0) (seq 1 31))). generalize (generate_reginit_trace rec). clear.
      induction l as [|[x y] l IH]; intros [|[x' y'] l'] E; cbn in E; try discriminate E; [reflexivity|]. injection E as -> -> E. f_equal. apply IH, E.
    + exact Q1.
    + exact Q2.
Qed.

Print Assumptions C80_signed_load_refuted.
