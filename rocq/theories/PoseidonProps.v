(** C74-C76: the tables behind the hash environment call. *)
From Verif Require Import PoseidonSpec DeviceProofs DeviceProps PoseidonPerm PoseidonGen PoseidonLook PoseidonSound ExecProofs TableProofs CpuTrace StateProofs WordProofs StateWitness CpuWitness StepProofs EcallProofs RunProofs CpuProofs CpuGen WordProps LoadProofs RunnerProps LoadModel.
Open Scope Z_scope.

(** * C74 Tables generated for the hash calls of an execution *)
(** For every execution, whatever the constants of the permutation: either some hashed message ends at the very top of the
    address space and table generation stops with an overflow, or no message does and the three tables are generated,
    satisfy their constraints, agree with each other and with the CPU table, read the three argument registers of each
    call, load each message and store its digest. The digest is stored to addresses that do not wrap around 2^32. *)
Theorem C74_generated_partial : forall K utf8_ok limit p fuel s rec, (0 < k_half K)%nat -> state_ok s -> good_program p ->
  step (poseidon2_permutation K) utf8_ok limit p fuel s = Ok rec ->
  let rows := run_rows rec in
  (generate_sponge_trace rows = Panic POverflow /\ exists c a o m, In (c, a, o, m) (hash_calls rows) /\ a + Z.of_nat (length m) = 2 ^ 32) \/
  ((forall c a o m, In (c, a, o, m) (hash_calls rows) -> a + Z.of_nat (length m) < 2 ^ 32) /\
   exists t, generate_sponge_trace rows = Ok t /\
   let pt := generate_perm_trace K rows in let ob := generate_ob_trace t in
   (trace_sat sponge_air t /\ Forall sp_canon t) /\ (trace_sat (perm_air K) pt /\ Forall (perm_canon K) pt) /\ (trace_sat ob_air ob /\ Forall ob_canon ob) /\
   ctl_ok (sp_cpu_looking t) (cpu_sp_looked (generate_cpu_trace rows)) /\ ctl_ok (perm_looking pt) (sp_perm_looked t) /\ ctl_ok (ob_looking ob) (sp_out_looked t) /\
   (forall v, mult_of v (sp_reg_looking t) = mult_of v (flat_map call_regs (hash_calls rows))) /\
   (forall v, mult_of v (sp_mem_looking t) = mult_of v (flat_map call_loads (hash_calls rows))) /\
   exists ds, Forall2 (digest_of (poseidon2_permutation K)) (hash_calls rows) ds /\
     forall v, mult_of v (ob_mem_looking ob) = mult_of v (flat_map digest_stores ds)).
Proof.
  intros K utf8_ok limit p fuel s rec K0 OK HP R rows. pose proof (good_program_ok _ HP) as PO. pose proof (step_rows_ok _ _ _ _ _ _ _ OK HP R) as F. fold (run_rows rec) in F. fold rows in F.
  pose proof (permutation_state12 K) as P12. pose proof (entries_calls _ P12 utf8_ok p rows PO F) as EC. unfold generate_sponge_trace.
  destruct (unroll_all_spec _ P12 utf8_ok _ _ EC) as [[T ->]|[T ->]]; cbn [rbind].
  - left. split; [reflexivity|]. apply (top_calls _ _ _ EC), T.
  - right. split.
    { intros c a o m I. assert (B : a + Z.of_nat (length m) <= 2 ^ 32).
      { clear - EC I. induction EC as [|x y xs ys H EC IH]; [destruct I|]. destruct I as [->|I]; [|apply IH, I]. destruct H as (_ & _ & _ & _ & B & _). exact B. }
      assert (N : a + Z.of_nat (length m) <> 2 ^ 32) by (intros Q; apply T, (top_calls _ _ _ EC); exists c, a, o, m; auto). lia. }
    set (ys := omap p2_entry_of rows) in *. exists (pad_with sp_default (sp_blocks ys)). split; [reflexivity|]. cbv zeta.
    pose proof (sponge_sat _ P12 utf8_ok _ _ EC) as SS. pose proof (blocks_canon _ _ _ P12 EC) as SC. pose proof (calls_entry12 _ P12 utf8_ok _ _ EC) as E12.
    split; [auto|]. split; [apply (perm_sat _ K ys K0 E12)|]. split; [split; [apply ob_sat; eapply List.Forall_impl; [|exact SC]; intros r Q; apply Q|apply ob_trace_canon, SC]|].
    split; [intros v; apply fz_eq; rewrite (cpu_side _ P12 utf8_ok _ _ _ EC), (cpu_table _ P12 utf8_ok _ p rows PO F); fold ys; lia|].
    split; [intros v; apply fz_eq; unfold generate_perm_trace; fold ys; rewrite (perm_table _ P12 utf8_ok K v ys K0 ltac:(reflexivity) E12); lia|].
    split; [intros v; apply fz_eq; rewrite (ob_table v _ (gens_bit _ SC SS)); lia|].
    split; [intros v; apply (regs_side _ P12 utf8_ok), EC|]. split; [intros v; apply (mem_side _ P12 utf8_ok), EC|]. apply stores_side; assumption.
Qed.
(** A program hashing [n] bytes at [a], digest to [o] *)
Definition hash_code (a n o : Z) : list instruction :=
  [ mkInst ADD (mkArgs 10 0 0 3); mkInst ADD (mkArgs 11 0 0 a); mkInst ADD (mkArgs 12 0 0 n); mkInst ADD (mkArgs 13 0 0 o); ECALL_INST ].
Definition hash_prog (a n o : Z) : program := program_create [] [] (exec_code (hash_code a n o)).
Lemma hash_prog_good a n o : u32 a -> u32 n -> u32 o -> good_program (hash_prog a n o).
Proof.
  intros Ha Hn Ho. constructor; unfold bytes_ok.
  - unfold u32; cbn; lia.
  - intros x b H. change (ro_memory (hash_prog a n o)) with (∅ : gmap Z Z) in H. rewrite lookup_empty in H. discriminate.
  - intros x b H. change (rw_memory (hash_prog a n o)) with (∅ : gmap Z Z) in H. rewrite lookup_empty in H. discriminate.
  - apply map_Forall_to_list. change (map_to_list (ro_code (hash_prog a n o))) with
      (ltac:(let v := eval vm_compute in (map_to_list (ro_code (hash_prog a n o))) in exact v)).
    repeat (apply List.Forall_cons; [unfold instruction_ok, is_reg, u32 in *; cbn; lia|]); apply List.Forall_nil.
Qed.
(** constants for examples *)
Definition toyK : p2consts := mkConsts (map Z.of_nat (seq 3 40)) [5; 6] (map Z.of_nat (seq 2 12)) 1.
Definition hash_run (a n o : Z) := step (poseidon2_permutation toyK) (fun _ => true) None (hash_prog a n o) 8 (state_new (hash_prog a n o) demo_tapes).
(** what a run hashes, whether it halts, and a check of the generated sponge table *)
Definition hash_check (a n o : Z) (calls : list (Z * Z * Z * list Z)) (f : res (list sprow) -> bool) : bool :=
  match hash_run a n o with
  | Ok rec => bool_decide (hash_calls (run_rows rec) = calls) && halted (last_state rec) && f (generate_sponge_trace (run_rows rec))
  | _ => false end.
Lemma hash_check_ok a n o calls f : hash_check a n o calls f = true ->
  exists rec, hash_run a n o = Ok rec /\ hash_calls (run_rows rec) = calls /\ halted (last_state rec) = true /\ f (generate_sponge_trace (run_rows rec)) = true.
Proof.
  unfold hash_check. destruct (hash_run a n o) as [rec| |]; try discriminate. rewrite !andb_true_iff. intros ((A & B) & C). exists rec. split; [reflexivity|]. apply bool_decide_eq_true in A. auto.
Qed.
Example C74_ex : exists rec t, hash_run 100 16 400 = Ok rec /\ hash_calls (run_rows rec) = [(6, 100, 400, repeat 0 16)] /\ generate_sponge_trace (run_rows rec) = Ok t /\
  map s_executed t = [1; 1; 0; 0; 0; 0; 0; 0] /\ good_program (hash_prog 100 16 400).
Proof.
  destruct (hash_check_ok 100 16 400 [(6, 100, 400, repeat 0 16)] (fun t => match t with Ok t => bool_decide (map s_executed t = [1; 1; 0; 0; 0; 0; 0; 0]) | _ => false end)) as (rec & R & C & _ & F); [vm_compute; reflexivity|].
  destruct (generate_sponge_trace (run_rows rec)) as [t| |] eqn:G; [|discriminate F|discriminate F]. apply bool_decide_eq_true in F. exists rec, t. split; [exact R|]. split; [exact C|]. split; [exact G|]. split; [exact F|]. apply hash_prog_good; unfold u32; lia.
Qed.
(** The machine hashes a message that ends at the top of the address space; the tables for it cannot be generated. *)
Theorem C74_generated_refuted : exists K p t fuel rec, (0 < k_half K)%nat /\ good_program p /\ good_tapes t /\
  step (poseidon2_permutation K) (fun _ => true) None p fuel (state_new p t) = Ok rec /\ halted (last_state rec) = true /\
  hash_calls (run_rows rec) = [(6, 4294967288, 400, repeat 0 8)] /\ generate_sponge_trace (run_rows rec) = Panic POverflow.
Proof.
  destruct (hash_check_ok 4294967288 8 400 [(6, 4294967288, 400, repeat 0 8)] (fun t => match t with Panic POverflow => true | _ => false end)) as (rec & R & C & Hl & F); [vm_compute; reflexivity|].
  exists toyK, (hash_prog 4294967288 8 400), demo_tapes, 8%nat, rec. split; [cbn; lia|]. split; [apply hash_prog_good; unfold u32; lia|]. split; [apply demo_tapes_good|]. split; [exact R|]. split; [exact Hl|]. split; [exact C|].
  destruct (generate_sponge_trace (run_rows rec)) as [| |[]]; first [discriminate F|reflexivity].
Qed.
(** The machine stores a digest across the top of the address space, wrapping around; the generated tables send addresses of
    2^32 and more to the memory table, which no memory table accepts. *)
Theorem C74_wrapped_digest_refuted : exists K p t fuel rec tab, (0 < k_half K)%nat /\ good_program p /\ good_tapes t /\
  step (poseidon2_permutation K) (fun _ => true) None p fuel (state_new p t) = Ok rec /\ halted (last_state rec) = true /\
  hash_calls (run_rows rec) = [(6, 100, 4294967280, repeat 0 8)] /\ generate_sponge_trace (run_rows rec) = Ok tab /\
  ~ exists cpus half full rest mem, mem_system cpus half full (sp_mem_looking tab ++ ob_mem_looking (generate_ob_trace tab) ++ rest) mem.
Proof.
  destruct (hash_check_ok 100 8 4294967280 [(6, 100, 4294967280, repeat 0 8)] (fun t => match t with Ok tab =>
    match nth_error (ob_mem_looking (generate_ob_trace tab)) 128 with Some ([6; 1; 0; 4294967296; b], 1) => (0 <=? b) && (b <? 256) | _ => false end | _ => false end)) as (rec & E & T2 & T1 & F); [vm_compute; reflexivity|].
  destruct (generate_sponge_trace (run_rows rec)) as [tab| |] eqn:G; [|discriminate F|discriminate F].
  exists toyK, (hash_prog 100 8 4294967280), demo_tapes, 8%nat, rec, tab. split; [cbn; lia|]. split; [apply hash_prog_good; unfold u32; lia|]. split; [apply demo_tapes_good|]. split; [exact E|]. split; [exact T1|]. split; [exact T2|]. split; [exact G|].
  intros (cpus & half & full & rest & mem & MS).
  assert (I : exists b, 0 <= b < 256 /\ In ([6; 1; 0; 4294967296; b], 1) (ob_mem_looking (generate_ob_trace tab))).
  { destruct (nth_error (ob_mem_looking (generate_ob_trace tab)) 128) as [[v f]|] eqn:N; [|discriminate F]. apply nth_error_In in N.
    assert (Q : exists b, 0 <= b < 256 /\ v = [6; 1; 0; 4294967296; b] /\ f = 1).
    { clear - F. repeat match type of F with context [match ?x with _ => _ end] => is_var x; destruct x; try discriminate F end. apply andb_true_iff in F as [F1 F2]. apply Z.leb_le in F1. apply Z.ltb_lt in F2. eauto. }
    destruct Q as (b & Hb & -> & ->). exists b. auto. }
  destruct I as (b & Hb & I). destruct (into_mem cpus half full _ mem MS 6 1 0 4294967296 b) as (_ & U & _).
  - repeat (apply List.Forall_cons; [unfold canon, P; lia|]). apply List.Forall_nil.
  - apply in_or_app. right. apply in_or_app. left. apply in_or_app. right. apply in_or_app. left. exact I.
  - unfold u32 in U. lia.
Qed.

(** * C76 The permutation table *)
(** The row generated for a state satisfies the constraints and holds the permutation of that state. *)
Theorem C76_generated : forall K pre exe, (0 < k_half K)%nat -> state12 pre ->
  let r := gen_perm K pre exe in
  (forall r', all_zero (a_always (perm_air K) r r')) /\ perm_canon K r /\ cubes_ok K r /\ q_input r = pre /\ last_state_of (q_second r) = poseidon2_permutation K pre.
Proof.
  intros K pre exe K0 S r. destruct (gen_perm_ok K pre exe K0 S) as (A & B & C). split; [exact C|]. split; [exact A|]. split; [exact B|]. split; [apply gen_perm_input|apply gen_perm_output; assumption].
Qed.
(** Conversely a row of an accepted table holds the permutation of its input, provided its helper columns are the cubes
    they stand for. *)
Theorem C76_output_partial : forall K t r, (0 < k_half K)%nat -> perm_accepted K t -> In r t -> cubes_ok K r ->
  last_state_of (q_second r) = poseidon2_permutation K (q_input r).
Proof.
  intros K t r K0 A I CK. pose proof (pa_canon _ _ A) as C. rewrite List.Forall_forall in C. pose proof (C r I) as Cr. pose proof (pa_sat _ _ A) as ST. apply In_lookup in I as [j Ej].
  destruct t as [|x l]; [discriminate|]. assert (L : (S j < length ((x :: l) ++ [x]))%nat) by (apply lookup_lt_Some in Ej; rewrite app_length; cbn [length] in *; lia).
  apply lookup_lt_is_Some in L as [r' E']. apply (perm_sound K r r' K0 Cr CK). eapply sat_always; [exact ST|]. eapply (adj_lookup_In _ j); [|exact E']. rewrite lookup_app_l; [exact Ej|]. apply lookup_lt_Some in Ej. exact Ej.
Qed.
(** generated tables *)
Definition perm_rows (K : p2consts) (pres : list (list Z)) : list prow := map (fun p => gen_perm K p true) pres ++ repeat (gen_perm K (repeat 0 12) false) 7.
Lemma always_accepted K t : t <> [] -> (forall r, In r t -> perm_canon K r /\ forall r', all_zero (a_always (perm_air K) r r')) -> max_rows t -> perm_accepted K t.
Proof.
  intros NE H L. constructor; [|apply List.Forall_forall; intros r I; apply H, I|exact L]. destruct t as [|x l]; [congruence|]. apply sat_pairs_first; [apply List.Forall_nil|reflexivity|].
  intros r r' I. split; [|apply List.Forall_nil]. assert (Ir : In r (x :: l)).
  { apply adj_In_lookup in I as (k & E & E'). apply lookup_lt_Some in E' as L'. rewrite app_length in L'. cbn [length] in L'. rewrite lookup_app_l in E by (cbn [length]; lia). eapply lookup_In; eauto. }
  apply (H r Ir).
Qed.
Lemma perm_rows_in K pres r : In r (perm_rows K pres) -> exists p b, r = gen_perm K p b /\ (In p pres \/ p = repeat 0 12).
Proof. unfold perm_rows. intros I. apply in_app_or in I as [I|I]; [apply in_map_iff in I as (p & <- & I); eauto|apply repeat_spec in I; eauto]. Qed.
Lemma perm_rows_ok K pres : (0 < k_half K)%nat -> Forall state12 pres -> (length pres <= 100)%nat -> perm_accepted K (perm_rows K pres) /\ Forall (fun r => q_exe r = 1 -> cubes_ok K r) (perm_rows K pres).
Proof.
  intros K0 F L. rewrite List.Forall_forall in F. assert (G : forall r, In r (perm_rows K pres) -> exists p b, r = gen_perm K p b /\ state12 p).
  { intros r I. apply perm_rows_in in I as (p & b & -> & [I| ->]); [exists p, b; auto|exists (repeat 0 12), b; split; [reflexivity|apply zeros12]]. }
  split.
  - apply always_accepted; [unfold perm_rows; intros Q; apply (f_equal length) in Q; rewrite app_length, repeat_length in Q; cbn in Q; lia| |unfold max_rows, perm_rows; rewrite app_length, map_length, repeat_length; lia].
    intros r I. destruct (G r I) as (p & b & -> & S). destruct (gen_perm_ok K p b K0 S) as (A & _ & C). auto.
  - apply List.Forall_forall. intros r I _. destruct (G r I) as (p & b & -> & S). apply (gen_perm_ok K p b K0 S).
Qed.
Example C76_ex : let pre := map Z.of_nat (seq 1 12) in perm_accepted toyK (perm_rows toyK [pre]) /\ poseidon2_permutation toyK pre <> repeat 0 12 /\ poseidon2_permutation toyK pre <> pre.
Proof.
  intros pre. split; [|split; [vm_compute; discriminate|vm_compute; discriminate]]. apply perm_rows_ok; [cbn; lia| |cbn; lia]. apply List.Forall_cons; [|apply List.Forall_nil]. split; [reflexivity|].
  repeat (apply List.Forall_cons; [unfold canon, P; lia|]). apply List.Forall_nil.
Qed.
(** But nothing ties the helper columns to the cubes: whatever the constants, an accepted table may claim that any state at
    all is mapped to the zero state. *)
Definition forge_zero (r : prow) : prow :=
  mkPRow (q_exe r) (q_input r) (q_first r) (q_state0 r) (q_mid r) (removelast (q_second r) ++ [repeat 0 12]) (q_cube1 r) (removelast (q_cube2 r) ++ [repeat 0 12]) (q_cubep r).
Lemma round_snoc K : forall l m r st a b, length l = length m ->
  round_constraints K r st (l ++ [a]) (m ++ [b]) = round_constraints K r st l m ++ zip_with Z.sub (matmul_external (sbox_cols (add_rc K (r + length l) (List.last l st)) b)) a.
Proof.
  induction l as [|x l IH]; intros [|y m] r st a b L; try discriminate; cbn [app round_constraints].
  - cbn [length List.last]. rewrite Nat.add_0_r, app_nil_r. reflexivity.
  - rewrite IH by (cbn in L; lia). rewrite <- app_assoc. f_equal. f_equal. cbn [length]. replace (S r + length l)%nat with (r + S (length l))%nat by lia. f_equal. f_equal. f_equal. f_equal. clear. destruct l as [|z l]; [reflexivity|]. change (List.last (z :: l) x = List.last (z :: l) st). apply last_default. discriminate.
Qed.
Lemma zero_round K r st : length st = 12%nat -> all_zero (zip_with Z.sub (matmul_external (sbox_cols (add_rc K r st) (repeat 0 12))) (repeat 0 12)).
Proof.
  intros L. assert (Lb : length (sbox_cols (add_rc K r st) (repeat 0 12)) = 12%nat) by (rewrite sbox_length; rewrite add_rc_length; [exact L|rewrite repeat_length; exact L]).
  destruct (matmul_external_spec _ Lb) as [L1 E1]. apply zip_sub; [rewrite L1; reflexivity|apply zeros12|]. rewrite E1.
  transitivity (apply_matrix external_matrix (repeat 0 12)); [|reflexivity]. apply apply_ext. intros i Hi. rewrite sbox_nth; [|rewrite add_rc_length, L; exact Hi|rewrite add_rc_length, repeat_length; exact L]. rewrite !nth_repeat. unfold feq. f_equal. lia.
Qed.
Lemma forge_row_ok K r r' : (0 < k_half K)%nat -> perm_canon K r -> all_zero (a_always (perm_air K) r r') ->
  perm_canon K (forge_zero r) /\ (forall r'', all_zero (a_always (perm_air K) (forge_zero r) r'')) /\ last_state_of (q_second (forge_zero r)) = repeat 0 12.
Proof.
  intros K0 C Z. destruct C as [C1 C2 C3 C4 [C5 C5'] C6 [C7 C7'] C8 C9]. destruct r as [exe input first state0 mid second cube1 cube2 cubep]. cbn [q_exe q_input q_first q_state0 q_mid q_second q_cube1 q_cube2 q_cubep] in *. unfold forge_zero. cbn [q_exe q_input q_first q_state0 q_mid q_second q_cube1 q_cube2 q_cubep].
  destruct (@exists_last _ second ltac:(intros ->; cbn in C5; lia)) as (l & a & ->). destruct (@exists_last _ cube2 ltac:(intros ->; cbn in C7; lia)) as (m & b & ->). rewrite !removelast_last.
  apply List.Forall_app in C5' as [F1 F1']. apply List.Forall_app in C7' as [F2 F2']. rewrite app_length in C5, C7. cbn [length] in C5, C7. split; [|split].
  - constructor; cbn [q_exe q_input q_first q_state0 q_mid q_second q_cube1 q_cube2 q_cubep]; auto.
    + rewrite app_length. cbn [length]. split; [exact C5|]. apply List.Forall_app. split; [exact F1|]. apply List.Forall_cons; [apply zeros12|apply List.Forall_nil].
    + rewrite app_length. cbn [length]. split; [exact C7|]. apply List.Forall_app. split; [exact F2|]. apply List.Forall_cons; [apply zeros12|apply List.Forall_nil].
  - intros r''. cbn [a_always perm_air q_exe q_input q_first q_state0 q_mid q_second q_cube1 q_cube2 q_cubep] in *. apply Forall_cons_iff in Z as [Z0 Z]. apply List.Forall_app in Z as [Z1 Z]. apply List.Forall_app in Z as [Z2 Z3].
    apply List.Forall_cons; [exact Z0|]. apply List.Forall_app. split; [exact Z1|]. apply List.Forall_app. split; [exact Z2|]. rewrite round_snoc in Z3 by lia. rewrite round_snoc by lia. apply List.Forall_app in Z3 as [Z3 _]. apply List.Forall_app. split; [exact Z3|].
    apply zero_round. destruct l as [|x l]; [apply C3|]. apply (last_Forall state12 (x :: l) mid ltac:(discriminate) F1).
  - unfold last_state_of. apply last_last.
Qed.
Theorem C76_output_refuted : forall K pre, (0 < k_half K)%nat -> state12 pre ->
  exists t r, perm_accepted K t /\ In r t /\ q_exe r = 1 /\ q_input r = pre /\ last_state_of (q_second r) = repeat 0 12.
Proof.
  intros K pre K0 S. destruct (gen_perm_ok K pre true K0 S) as (A & _ & C). destruct (forge_row_ok K _ (gen_perm K pre true) K0 A (C _)) as (A' & C' & O). set (r := forge_zero (gen_perm K pre true)) in *.
  exists (repeat r 8), r. split; [|split; [left; reflexivity|split; [|split; [|exact O]]]].
  - apply always_accepted; [discriminate| |unfold max_rows; rewrite repeat_length; lia]. intros x I. apply repeat_spec in I. subst x. auto.
  - apply (proj2 (gen_perm_input K pre true)).
  - apply (proj1 (gen_perm_input K pre true)).
Qed.

(** * C75 What an accepted proof says about hash calls *)
(** At each clock there are as many hashed messages as hash calls of the CPU. *)
Theorem C75_calls : forall K cpus half full sponge perm ob rest mem, (0 < k_half K)%nat -> hash_system K cpus half full sponge perm ob rest mem -> forall c, canon c ->
  length (List.filter (fun q => (s_init q =? 1) && (s_clk q =? c)) sponge) = length (List.filter (fun r => (c_ecall r e_poseidon2 =? 1) && (c_clk r =? c)) cpus).
Proof. intros. eapply calls_count; eauto. Qed.
(** Provided the blocks of a message are chained as the constraints fail to require, and the permutation table holds the
    cubes that its constraints fail to require: every hash call of the CPU loads a message from the address and of the
    length given in registers a1 and a2, and stores to the address in a3 bytes that encode, modulo P, the digest. *)
Theorem C75_hash_partial : forall K cpus half full sponge perm ob rest mem, (0 < k_half K)%nat -> hash_system K cpus half full sponge perm ob rest mem ->
  sp_chained sponge -> Forall (fun r => q_exe r = 1 -> cubes_ok K r) perm ->
  forall r, In r cpus -> c_ecall r e_poseidon2 = 1 ->
  exists a o msg sp d bytes, call_args sponge (c_clk r) a (Z.of_nat (length msg)) o /\ msg <> [] /\ Forall u8 msg /\
    (forall k b, msg !! k = Some b -> u32 (a + Z.of_nat k) /\ accesses mem (c_clk r) 0 1 (a + Z.of_nat k) b) /\
    sponge_chain (poseidon2_permutation K) msg sp /\ stdpp.list.last sp = Some d /\ encodes_digest bytes (output d) /\
    (forall k b, bytes !! k = Some b -> u32 (o + Z.of_nat k) /\ accesses mem (c_clk r) 1 0 (o + Z.of_nat k) b).
Proof.
  intros K cpus half full sponge perm ob rest mem K0 HS CH CB r I W. eapply hash_call_sound; eauto.
Qed.
(** and, provided the chaining, every digest stored and every byte absorbed belongs to a hash call of the CPU at that clock,
    the digest being stored where that call's register says *)
Theorem C75_only_calls_partial : forall K cpus half full sponge perm ob rest mem, (0 < k_half K)%nat -> hash_system K cpus half full sponge perm ob rest mem -> sp_chained sponge ->
  (forall w, In w ob -> o_exe w = 1 -> exists r q, In r cpus /\ c_ecall r e_poseidon2 = 1 /\ In q sponge /\ s_init q = 1 /\ c_clk r = o_clk w /\ s_clk q = o_clk w /\ s_out q = o_addr w) /\
  (forall q, In q sponge -> s_executed q = 1 -> exists r q0 n, In r cpus /\ c_ecall r e_poseidon2 = 1 /\ In q0 sponge /\ s_init q0 = 1 /\ c_clk r = s_clk q /\ s_clk q0 = s_clk q /\ feq (s_in q) (s_in q0 + 8 * Z.of_nat n)).
Proof. intros. split; [eapply store_called; eauto|eapply load_called; eauto]. Qed.

(** witnesses *)
Definition state12b (l : list Z) : bool := (length l =? 12)%nat && forallb canonb l.
Lemma state12b_ok l : state12b l = true -> state12 l.
Proof. unfold state12b. rewrite andb_true_iff, Nat.eqb_eq, forallb_forall. intros [L F]. split; [exact L|]. apply List.Forall_forall. intros x I. apply canonb_ok, F, I. Qed.
Definition check_sponge (t : list sprow) : bool :=
  check_air sponge_air t && forallb (fun r => forallb canonb [s_clk r; s_init r; s_permute r; s_in r; s_out r; s_len r; s_gen r] && state12b (s_pre r) && state12b (s_post r)) t && (Z.of_nat (length t) <=? 2 ^ 32).
Lemma check_sponge_ok t : check_sponge t = true -> sp_accepted t.
Proof.
  unfold check_sponge. rewrite !andb_true_iff. intros ((C1 & C2) & C3). constructor; [apply check_air_ok, C1| |apply Z.leb_le, C3].
  rewrite forallb_forall in C2. apply List.Forall_forall. intros r I. specialize (C2 r I). rewrite !andb_true_iff, forallb_forall in C2. destruct C2 as ((D & D1) & D2).
  unfold sp_canon. repeat split_and; try (apply state12b_ok; assumption); apply canonb_ok, D; cbn; auto 10.
Qed.
Definition check_ob (t : list obrow) : bool :=
  check_air ob_air t && forallb (fun r => forallb canonb ([o_exe r; o_clk r; o_addr r] ++ o_fields r ++ o_bytes r) && (length (o_fields r) =? 4)%nat && (length (o_bytes r) =? 32)%nat) t && (Z.of_nat (length t) <=? 2 ^ 32).
Lemma check_ob_ok t : check_ob t = true -> ob_accepted t.
Proof.
  unfold check_ob. rewrite !andb_true_iff. intros ((C1 & C2) & C3). constructor; [apply check_air_ok, C1| |apply Z.leb_le, C3].
  rewrite forallb_forall in C2. apply List.Forall_forall. intros r I. specialize (C2 r I). rewrite !andb_true_iff, forallb_forall, !Nat.eqb_eq in C2. destruct C2 as ((D & D1) & D2).
  unfold ob_canon. repeat split_and; auto; try (apply canonb_ok, D; cbn; auto 10; fail); apply List.Forall_forall; intros x J; apply canonb_ok, D, in_or_app; right; apply in_or_app; auto.
Qed.
(** everything but the permutation table *)
Definition check_hash (cpus : list cpu) (half full : list wordrow) (sponge : list sprow) (ob : list obrow) (mem : list memrow) : bool :=
  check_mem_system cpus half full (sp_mem_looking sponge ++ ob_mem_looking ob ++ []) mem && check_sponge sponge && check_ob ob
  && ctl_check (sp_cpu_looking sponge) (cpu_sp_looked cpus) && ctl_check (ob_looking ob) (sp_out_looked sponge).
Lemma check_hash_ok K cpus half full sponge perm ob mem : check_hash cpus half full sponge ob mem = true -> perm_accepted K perm -> ctl_ok (perm_looking perm) (sp_perm_looked sponge) ->
  hash_system K cpus half full sponge perm ob [] mem.
Proof.
  unfold check_hash. rewrite !andb_true_iff. intros ((((C1 & C2) & C3) & C4) & C5) PA PC. constructor; [apply check_mem_system_ok, C1|apply check_sponge_ok, C2|exact PA|apply check_ob_ok, C3|apply ctl_check_ok, C4|exact PC|apply ctl_check_ok, C5].
Qed.
Definition check_sp_chained (t : list sprow) : bool :=
  forallb (fun '(r, r') => imp ((s_executed r =? 1) && (s_gen r =? 0)) ((s_permute r' =? 1) && (s_out r' =? s_out r)) && imp (s_permute r' =? 1) (s_executed r =? 1)) (adj t)
  && match stdpp.list.last t with Some r => imp (s_executed r =? 1) (s_gen r =? 1) | None => true end.
Lemma check_sp_chained_ok t : check_sp_chained t = true -> sp_chained t.
Proof.
  unfold check_sp_chained. rewrite !andb_true_iff. intros [A B]. rewrite forallb_forall in A. constructor.
  - intros k r r' E E' X G. specialize (A _ (adj_lookup_In _ _ _ _ E E')). cbv beta iota in A. apply andb_true_iff in A as [A _]. apply imp_ok in A; [|rewrite X, G; reflexivity]. apply andb_true_iff in A as [A1 A2]. apply Z.eqb_eq in A1, A2. auto.
  - intros k r' E' X. destruct (lookup_lt_is_Some_2 t k) as [r E]; [apply lookup_lt_Some in E'; lia|]. exists r. split; [exact E|]. specialize (A _ (adj_lookup_In _ _ _ _ E E')). cbv beta iota in A. apply andb_true_iff in A as [_ A]. apply imp_ok in A; [apply Z.eqb_eq, A|rewrite X; reflexivity].
  - intros r E X. rewrite E in B. apply imp_ok in B; [apply Z.eqb_eq, B|rewrite X; reflexivity].
Qed.
(** a call hashing [n] bytes at [a], digest to [o], at clock 2 *)
Definition hash_row (a n o : Z) : cpu :=
  gen_row (mkState 2 false (repeat 0 10 ++ [3; a; n; o] ++ repeat 0 18) 0 (mkMem ∅ ∅) (mkTape [] 0) (mkTape [] 0) (mkTape [] 0) (mkTape [] 0) [] [] [])
     ECALL_INST (mkAux 0 4 None [] false 3 a a (Some (mkP2 a o n [])) None).
(** a memory table loading [m] from [a] and storing [d] to [o], a < o, at clock 2 *)
Definition hash_mem (a : Z) (m : list Z) (o : Z) (d : list Z) : list memrow :=
  [minit 0 0 1] ++ flat_map (fun '(k, b) => [minit (a + Z.of_nat k) b 1; mkMemRow 1 (a + Z.of_nat k) 2 0 1 0 b]) (combine (seq 0 (length m)) m)
  ++ flat_map (fun '(k, b) => [minit (o + Z.of_nat k) 0 1; mkMemRow 1 (o + Z.of_nat k) 2 1 0 0 b]) (combine (seq 0 (length d)) d) ++ [minit 4294967295 0 1] ++ mem_pad 2.
(** honest tables for one block *)
Definition one_block (K : p2consts) (a o : Z) (m : list Z) : sprow := mkSpRow 2 1 0 a o 8 (m ++ repeat 0 4) (poseidon2_permutation K (m ++ repeat 0 4)) 1.
Definition msg8 : list Z := [1; 2; 3; 4; 5; 6; 7; 8].
Definition toy_digest : list Z := flat_map (le_bytes 8) (take 4 (poseidon2_permutation toyK (msg8 ++ repeat 0 4))).
Example C75_ex : let sponge := one_block toyK 100 400 msg8 :: repeat sp_default 7 in let perm := perm_rows toyK [msg8 ++ repeat 0 4] in
  hash_system toyK (table_of (hash_row 100 8 400)) (word_pad 2 8) (word_pad 4 8) sponge perm (generate_ob_trace sponge) [] (hash_mem 100 msg8 400 toy_digest) /\
  sp_chained sponge /\ Forall (fun r => q_exe r = 1 -> cubes_ok toyK r) perm /\ c_ecall (hash_row 100 8 400) e_poseidon2 = 1.
Proof.
  intros sponge perm. assert (PR : perm_accepted toyK perm /\ Forall (fun r => q_exe r = 1 -> cubes_ok toyK r) perm).
  { apply perm_rows_ok; [cbn; lia| |cbn; lia]. apply List.Forall_cons; [apply state12b_ok; vm_compute; reflexivity|apply List.Forall_nil]. }
  destruct PR as [PR1 PR2]. split; [|split; [apply check_sp_chained_ok; vm_compute; reflexivity|split; [exact PR2|reflexivity]]]. apply check_hash_ok; [vm_compute; reflexivity|exact PR1|]. apply ctl_check_ok. vm_compute. reflexivity.
Qed.
(** ** Why the provisos are needed *)
(** constants for which the zero state is a fixed point; the permutation table is honest in what follows *)
Definition nullK : p2consts := mkConsts [] [] [] 1.
Lemma null_rows n : (n <= 100)%nat -> perm_accepted nullK (perm_rows nullK (repeat (repeat 0 12) n)) /\ Forall (fun r => q_exe r = 1 -> cubes_ok nullK r) (perm_rows nullK (repeat (repeat 0 12) n)).
Proof. intros L. apply perm_rows_ok; [cbn; lia| |rewrite repeat_length; exact L]. apply List.Forall_forall. intros x I. apply repeat_spec in I. subst x. apply zeros12. Qed.
Definition zero_block (init permute_ a o n gen : Z) : sprow := mkSpRow 2 init permute_ a o n (repeat 0 12) (repeat 0 12) gen.
(** A digest may be stored although the CPU makes no environment call at all. *)
Theorem C75_write_without_call_refuted : exists K cpus half full sponge perm ob mem, (0 < k_half K)%nat /\ hash_system K cpus half full sponge perm ob [] mem /\ Forall (fun r => q_exe r = 1 -> cubes_ok K r) perm /\
  (forall r, In r cpus -> c_op r o_ecall = 0 /\ forall w, c_op r (store_sel w) = 0) /\ accesses mem 2 1 0 400 0.
Proof.
  exists nullK, (table_of pad_row), (word_pad 2 8), (word_pad 4 8), ([sp_default; mkSpRow 2 0 0 0 0 0 (repeat 0 12) (repeat 0 12) 0] ++ [zero_block 0 1 100 400 8 1] ++ repeat sp_default 5),
    (perm_rows nullK (repeat (repeat 0 12) 1)), (mkObRow 1 2 400 (repeat 0 4) (repeat 0 32) :: repeat ob_default 7), (hash_mem 100 (repeat 0 8) 400 (repeat 0 32)).
  destruct (null_rows 1 ltac:(lia)) as [N1 N2]. split; [cbn; lia|]. split; [|split; [exact N2|split]].
  - apply check_hash_ok; [vm_compute; reflexivity|exact N1|]. apply ctl_check_ok. vm_compute. reflexivity.
  - intros r I. assert (r = pad_row) as -> by (cbn in I; intuition). split; [reflexivity|]. intros []; reflexivity.
  - eexists. split; [apply in_or_app; right; apply in_or_app; right; apply in_or_app; left; apply in_flat_map; exists (0%nat, 0); split; [left; reflexivity|right; left; reflexivity]|]. cbn. auto 10.
Qed.
(** A hash call may store no digest at all. *)
Theorem C75_call_without_digest_refuted : exists K cpus half full sponge perm ob mem r, (0 < k_half K)%nat /\ hash_system K cpus half full sponge perm ob [] mem /\ Forall (fun r => q_exe r = 1 -> cubes_ok K r) perm /\
  In r cpus /\ c_ecall r e_poseidon2 = 1 /\ (forall m, In m mem -> m_store m = 0).
Proof.
  exists nullK, (table_of (hash_row 100 8 400)), (word_pad 2 8), (word_pad 4 8), ([zero_block 1 0 100 400 8 0; mkSpRow 0 0 0 108 0 0 (repeat 0 12) (repeat 0 12) 0] ++ repeat sp_default 6),
    (perm_rows nullK (repeat (repeat 0 12) 1)), (repeat ob_default 8), (hash_mem 100 (repeat 0 8) 400 []), (hash_row 100 8 400).
  destruct (null_rows 1 ltac:(lia)) as [N1 N2]. split; [cbn; lia|]. split; [|split; [exact N2|split; [left; reflexivity|split; [reflexivity|]]]].
  - apply check_hash_ok; [vm_compute; reflexivity|exact N1|]. apply ctl_check_ok. vm_compute. reflexivity.
  - intros m I. assert (Q : forallb (fun m => m_store m =? 0) (hash_mem 100 (repeat 0 8) 400 []) = true) by reflexivity. rewrite forallb_forall in Q. apply Z.eqb_eq, Q, I.
Qed.
(** The digest of a message of several blocks may be stored to any address, whatever register a3 says. *)
Theorem C75_digest_elsewhere_refuted : exists K cpus half full sponge perm ob mem, (0 < k_half K)%nat /\ hash_system K cpus half full sponge perm ob [] mem /\ Forall (fun r => q_exe r = 1 -> cubes_ok K r) perm /\
  In (hash_row 100 16 400) cpus /\ c_ecall (hash_row 100 16 400) e_poseidon2 = 1 /\ call_args sponge 2 100 16 400 /\
  (forall n, ~ In ([2; 1; 13; n], 1) (sp_reg_looking sponge) \/ n = 400) /\ (forall m, In m mem -> m_store m = 1 -> 5000 <= m_addr m < 5032) /\ accesses mem 2 1 0 5000 0.
Proof.
  exists nullK, (table_of (hash_row 100 16 400)), (word_pad 2 8), (word_pad 4 8), ([zero_block 1 0 100 400 16 0; zero_block 0 1 108 5000 8 1] ++ repeat sp_default 6),
    (perm_rows nullK (repeat (repeat 0 12) 2)), (mkObRow 1 2 5000 (repeat 0 4) (repeat 0 32) :: repeat ob_default 7), (hash_mem 100 (repeat 0 16) 5000 (repeat 0 32)).
  destruct (null_rows 2 ltac:(lia)) as [N1 N2]. split; [cbn; lia|]. split; [|split; [exact N2|split; [left; reflexivity|split; [reflexivity|split; [|split; [|split]]]]]].
  - apply check_hash_ok; [vm_compute; reflexivity|exact N1|]. apply ctl_check_ok. vm_compute. reflexivity.
  - unfold call_args. cbn. auto 30.
  - intros n. destruct (Z.eq_dec n 400); [right; assumption|left]. intros I. vm_compute in I. repeat (destruct I as [I|I]; [try discriminate I; injection I as ?; congruence|]). destruct I.
  - intros m I. assert (Q : forallb (fun m => imp (m_store m =? 1) ((5000 <=? m_addr m) && (m_addr m <? 5032))) (hash_mem 100 (repeat 0 16) 5000 (repeat 0 32)) = true) by reflexivity. rewrite forallb_forall in Q. specialize (Q m I).
    intros S. apply imp_ok in Q; [|rewrite S; reflexivity]. apply andb_true_iff in Q as [Q1 Q2]. apply Z.leb_le in Q1. apply Z.ltb_lt in Q2. auto.
  - eexists. split; [apply in_or_app; right; apply in_or_app; right; apply in_or_app; left; apply in_flat_map; exists (0%nat, 0); split; [left; reflexivity|right; left; reflexivity]|]. cbn. auto 10.
Qed.
(** The stored bytes need not be the canonical ones: an element below 2^32 - 1 may also be stored as itself plus P. *)
Definition wide_zero : list Z := le_bytes 8 P ++ repeat 0 24.
Theorem C75_noncanonical_digest_refuted : exists K cpus half full sponge perm ob mem, (0 < k_half K)%nat /\ hash_system K cpus half full sponge perm ob [] mem /\ sp_chained sponge /\ Forall (fun r => q_exe r = 1 -> cubes_ok K r) perm /\
  In (hash_row 100 8 400) cpus /\ c_ecall (hash_row 100 8 400) e_poseidon2 = 1 /\ call_args sponge 2 100 8 400 /\
  is_digest (poseidon2_permutation K) (repeat 0 8) (repeat 0 32) /\ accesses mem 2 1 0 400 1.
Proof.
  exists nullK, (table_of (hash_row 100 8 400)), (word_pad 2 8), (word_pad 4 8), (zero_block 1 0 100 400 8 1 :: repeat sp_default 7),
    (perm_rows nullK (repeat (repeat 0 12) 1)), (mkObRow 1 2 400 (repeat 0 4) wide_zero :: repeat ob_default 7), (hash_mem 100 (repeat 0 8) 400 wide_zero).
  destruct (null_rows 1 ltac:(lia)) as [N1 N2]. split; [cbn; lia|]. split; [|split; [apply check_sp_chained_ok; vm_compute; reflexivity|split; [exact N2|split; [left; reflexivity|split; [reflexivity|split; [|split]]]]]].
  - apply check_hash_ok; [vm_compute; reflexivity|exact N1|]. apply ctl_check_ok. vm_compute. reflexivity.
  - unfold call_args. cbn. auto 30.
  - exists [mkSponge (repeat 0 12) (repeat 0 12) 1], (mkSponge (repeat 0 12) (repeat 0 12) 1). split; [|split; reflexivity]. split; [reflexivity|]. intros [|k] d E; [|destruct k; discriminate]. cbn in E. injection E as <-. split; [reflexivity|]. split; [vm_compute; reflexivity|reflexivity].
  - eexists. split; [apply in_or_app; right; apply in_or_app; right; apply in_or_app; left; apply in_flat_map; exists (0%nat, 1); split; [left; reflexivity|right; left; reflexivity]|]. cbn. auto 10.
Qed.
(** Whatever the constants, an accepted proof may claim that this message, or this other one, has the digest zero. *)
Definition zero_digest_row (K : p2consts) (m : list Z) : prow := forge_zero (gen_perm K (m ++ repeat 0 4) true).
Theorem C75_forged_digest_refuted : forall K, (0 < k_half K)%nat -> forall m, m = msg8 \/ m = rev msg8 ->
  exists cpus half full sponge perm ob mem, hash_system K cpus half full sponge perm ob [] mem /\ sp_chained sponge /\
  In (hash_row 100 8 400) cpus /\ c_ecall (hash_row 100 8 400) e_poseidon2 = 1 /\ call_args sponge 2 100 8 400 /\
  (forall k b, m !! k = Some b -> accesses mem 2 0 1 (100 + Z.of_nat k) b) /\ (forall k, (k < 32)%nat -> accesses mem 2 1 0 (400 + Z.of_nat k) 0) /\
  (forall x, In x mem -> m_store x = 1 -> m_value x = 0).
Proof.
  intros K K0 m Hm. assert (S12 : state12 (m ++ repeat 0 4)) by (destruct Hm as [-> | ->]; apply state12b_ok; vm_compute; reflexivity).
  set (sponge := mkSpRow 2 1 0 100 400 8 (m ++ repeat 0 4) (repeat 0 12) 1 :: repeat sp_default 7).
  exists (table_of (hash_row 100 8 400)), (word_pad 2 8), (word_pad 4 8), sponge, (zero_digest_row K m :: repeat (gen_perm K (repeat 0 12) false) 7), (mkObRow 1 2 400 (repeat 0 4) (repeat 0 32) :: repeat ob_default 7), (hash_mem 100 m 400 (repeat 0 32)).
  destruct (gen_perm_ok K _ true K0 S12) as (A & _ & C). destruct (forge_row_ok K _ (gen_perm K (m ++ repeat 0 4) true) K0 A (C _)) as (A' & C' & O).
  split; [|split; [destruct Hm as [-> | ->]; apply check_sp_chained_ok; vm_compute; reflexivity|split; [left; reflexivity|split; [reflexivity|split; [destruct Hm as [-> | ->]; unfold call_args; cbn; auto 30|split; [|split]]]]]].
  - apply check_hash_ok.
    + destruct Hm as [-> | ->]; vm_compute; reflexivity.
    + apply always_accepted; [discriminate| |unfold max_rows; cbn; lia]. intros r [<-|I]; [split; assumption|]. apply repeat_spec in I. subst r. destruct (gen_perm_ok K (repeat 0 12) false K0 zeros12) as (D1 & _ & D2). auto.
    + intros v. apply fz_eq. unfold perm_looking, sp_perm_looked, sponge. cbn [map]. rewrite !mult_of_cons. rewrite (mult_of_zero v (map _ (repeat (gen_perm _ _ _) 7))), (mult_of_zero v (map _ (repeat sp_default 7))).
      * unfold zero_digest_row. rewrite O. change (q_input (forge_zero (gen_perm K (m ++ repeat 0 4) true))) with (q_input (gen_perm K (m ++ repeat 0 4) true)). change (q_exe (forge_zero (gen_perm K (m ++ repeat 0 4) true))) with (q_exe (gen_perm K (m ++ repeat 0 4) true)).
        rewrite (proj1 (gen_perm_input _ _ _)), (proj2 (gen_perm_input _ _ _)). cbn [s_pre s_post b2z]. unfold s_executed. cbn [s_init s_permute]. destruct (decide _); reflexivity.
      * intros e I. apply in_map_iff in I as (r & <- & I). apply repeat_spec in I. subst r. reflexivity.
      * intros e I. apply in_map_iff in I as (r & <- & I). apply repeat_spec in I. subst r. cbn [snd]. apply (proj2 (gen_perm_input K (repeat 0 12) false)).
  - intros k b E. exists (mkMemRow 1 (100 + Z.of_nat k) 2 0 1 0 b). split; [|cbn; auto 10]. apply in_or_app. right. apply in_or_app. left. apply in_flat_map. exists (k, b). split; [|right; left; reflexivity].
    apply (lookup_In _ k). rewrite combine_seq_lookup, E. reflexivity.
  - intros k Hk. exists (mkMemRow 1 (400 + Z.of_nat k) 2 1 0 0 0). split; [|cbn; auto 10]. apply in_or_app. right. apply in_or_app. right. apply in_or_app. left. apply in_flat_map. exists (k, 0). split; [|right; left; reflexivity].
    apply (lookup_In _ k). rewrite combine_seq_lookup. change (repeat 0 32) with (replicate 32 0). rewrite lookup_replicate_2 by exact Hk. reflexivity.
  - intros x I. assert (Q : forallb (fun x => imp (m_store x =? 1) (m_value x =? 0)) (hash_mem 100 m 400 (repeat 0 32)) = true) by (destruct Hm as [-> | ->]; reflexivity). rewrite forallb_forall in Q. specialize (Q x I).
    intros S. apply imp_ok in Q; [apply Z.eqb_eq, Q|rewrite S; reflexivity].
Qed.

Print Assumptions C74_generated_partial.
Print Assumptions C74_generated_refuted.
Print Assumptions C74_wrapped_digest_refuted.
Print Assumptions C75_calls.
Print Assumptions C75_hash_partial.
Print Assumptions C75_only_calls_partial.
Print Assumptions C75_write_without_call_refuted.
Print Assumptions C75_call_without_digest_refuted.
Print Assumptions C75_digest_elsewhere_refuted.
Print Assumptions C75_noncanonical_digest_refuted.
Print Assumptions C75_forged_digest_refuted.
Print Assumptions C76_generated.
Print Assumptions C76_output_partial.
Print Assumptions C76_output_refuted.
