(** The lookups of the generated hash tables: proofs. *)
From Verif Require Import PoseidonSpec DeviceProofs PoseidonPerm PoseidonGen ExecProofs TableProofs CpuTrace StateProofs WordProofs StateWitness StepProofs EcallProofs RunProofs CpuProofs CpuGen WordProps.
Open Scope Z_scope.

(** ** Sums *)
Lemma sumZ_swap {A B} (F : A -> B -> Z) l l' :
  sumZ (map (fun a => sumZ (map (fun b => F a b) l')) l) = sumZ (map (fun b => sumZ (map (fun a => F a b) l)) l').
Proof.
  induction l as [|a l IH]; [symmetry; apply sumZ_zero; reflexivity|]. cbn [map]. rewrite sumZ_cons, IH, sumZ_add. apply sumZ_ext. intros b _. rewrite sumZ_cons. reflexivity.
Qed.
Lemma combine_seq_map {A} (d0 : A) l : forall b, combine (seq b (length l)) l = map (fun k => (k, nth (k - b) l d0)) (seq b (length l)).
Proof.
  induction l as [|x l IH]; intros b; [reflexivity|]. cbn [length seq combine map]. rewrite Nat.sub_diag, IH. f_equal. apply map_ext_in. intros k I. apply in_seq in I.
  replace (k - b)%nat with (S (k - S b)) by lia. reflexivity.
Qed.
Lemma map_seq_off b n : forall a, map (fun j => b + j)%nat (seq a n) = seq (b + a) n.
Proof. induction n as [|n IH]; intros a; [reflexivity|]. cbn [seq map]. rewrite IH. f_equal. f_equal. lia. Qed.
Lemma sum_blocks (G : nat -> Z) n : sumZ (map (fun k => sumZ (map (fun j => G (8 * k + j)%nat) (seq 0 8))) (seq 0 n)) = sumZ (map G (seq 0 (8 * n))).
Proof.
  induction n as [|n IH]; [reflexivity|]. rewrite (seq_S n 0), map_app, sumZ_app, IH. replace (8 * S n)%nat with (8 * n + 8)%nat by lia.
  rewrite (seq_app (8 * n) 8 0), map_app, sumZ_app. f_equal. cbn [map]. rewrite sumZ_cons. change (sumZ []) with 0. rewrite Z.add_0_r. f_equal.
  change (0 + 8 * n)%nat with (8 * n)%nat. pose proof (map_seq_off (8 * n) 8 0) as M. rewrite Nat.add_0_r in M. rewrite <- M, map_map. reflexivity.
Qed.
Definition hit (v t : list Z) : Z := if decide (tuple_key t = tuple_key v) then 1 else 0.
Lemma mult_hits {A} v (f : A -> list Z) l : mult_of v (map (fun x => (f x, 1)) l) = sumZ (map (fun x => hit v (f x)) l).
Proof. rewrite mult_map. apply sumZ_ext. intros x _. reflexivity. Qed.

Section WithHash.
Variable permute : list Z -> list Z.
Hypothesis permute12 : forall l, state12 (permute l).
Variable utf8_ok : list Z -> bool.
Notation step_ok := (step_ok permute utf8_ok).
Notation call_entry := (call_entry permute).

Lemma sp_mult v (f : sprow -> list Z) (g : sprow -> Z) ys : g sp_default = 0 ->
  mult_of v (map (fun r => (f r, g r)) (pad_with sp_default (sp_blocks ys))) =
  sumZ (map (fun y => mult_of v (map (fun r => (f r, g r)) (sp_rows (fst y) (snd y)))) ys).
Proof.
  intros G. unfold pad_with. rewrite map_app, mult_of_app, (mult_of_zero v (map _ (repeat _ _))).
  2:{ intros e I. apply in_map_iff in I as (q & <- & I). apply repeat_spec in I. subst q. exact G. }
  rewrite Z.add_0_r. unfold sp_blocks. induction ys as [|[c e] l IH]; [reflexivity|]. cbn [flat_map map]. rewrite map_app, mult_of_app, IH, sumZ_cons. reflexivity.
Qed.
Lemma sp_init v (f : sprow -> list Z) c a o n d sp :
  mult_of v (map (fun r => (f r, s_init r)) (sp_rows c (mkP2 a o n (d :: sp)))) = hit v (f (sp_row c a o n 0 d)).
Proof.
  unfold sp_rows. cbn [p2_addr p2_output_addr p2_len p2_sponge length seq combine map]. rewrite mult_of_cons. rewrite (mult_of_zero v (map _ (map _ _))); [rewrite Z.add_0_r; reflexivity|].
  intros e I. apply in_map_iff in I as (r & <- & I). apply in_map_iff in I as ([k x] & <- & I). apply in_combine_l in I. apply in_seq in I. cbn. destruct k; [lia|reflexivity].
Qed.
Lemma hit_mod v c l : hit v (c mod P :: l) = hit v (c :: l).
Proof. unfold hit. replace (tuple_key (c mod P :: l)) with (tuple_key (c :: l)) by (unfold tuple_key; cbn [map]; rewrite Z.mod_mod by discriminate; reflexivity). reflexivity. Qed.
Lemma cpu_side v xs ys : Forall2 call_entry xs ys -> mult_of v (sp_cpu_looking (pad_with sp_default (sp_blocks ys))) = sumZ (map (fun y : Z * p2_entry => hit v [fst y]) ys).
Proof.
  intros F. unfold sp_cpu_looking. rewrite sp_mult by reflexivity. induction F as [|[[[c a] o] m] [c' e] xs ys H F IH]; [reflexivity|]. cbn [map fst snd]. rewrite !sumZ_cons, IH. f_equal.
  destruct H as (Ec & _ & _ & _ & _ & sp & Ee & _ & NE). cbn in Ec, Ee. subst. destruct sp as [|d sp]; [congruence|]. rewrite sp_init. cbn. apply hit_mod.
Qed.
Lemma cpu_table v p rows : program_ok p -> Forall (step_ok p) rows -> mult_of v (cpu_sp_looked (generate_cpu_trace rows)) = sumZ (map (fun y : Z * p2_entry => hit v [fst y]) (omap p2_entry_of rows)).
Proof.
  intros PO F. unfold cpu_sp_looked, generate_cpu_trace, pad_with. rewrite map_app, mult_of_app, (mult_of_zero v (map _ (repeat _ _))).
  2:{ intros e I. apply in_map_iff in I as (q & <- & I). apply repeat_spec in I. subst q. reflexivity. }
  rewrite Z.add_0_r, map_map. rewrite mult_map. rewrite (sumZ_filter _ (fun x : state * instruction * aux => _)).
  - rewrite (sumZ_ext (fun y : Z * p2_entry => hit v [fst y]) (fun y => mult_of v [([fst y], 1)])) by (intros y _; rewrite mult_of_cons; cbn; unfold hit; destruct (decide _); reflexivity).
    rewrite (mult_omap v p2_entry_of (fun y => [([fst y], 1)])). apply sumZ_ext. intros [[s i] a] I. rewrite gr_ecall, gr_clk. unfold gen_ecall, p2_entry_of. destruct (poseidon2 a) as [e|].
    + cbn [fst]. rewrite mult_of_cons. change (mult_of v []) with 0. rewrite Z.add_0_r. apply (hit_mod v (clk s) []).
    + destruct (decide _); reflexivity.
  - intros [[s i] a] I Q. apply negb_false_iff in Q. assert (N : iop i <> ECALL) by (unfold handled_elsewhere in Q; destruct (iop i); discriminate).
    rewrite gr_ecall. unfold gen_ecall. rewrite List.Forall_forall in F. pose proof (entry_hash permute permute12 utf8_ok p s i a PO (F _ I)) as EH. unfold hash_call, p2_entry_of in EH.
    rewrite bool_decide_eq_false_2 in EH by exact N. cbn [andb] in EH. destruct (poseidon2 a); [contradiction|]. destruct (decide _); reflexivity.
Qed.
Lemma regs_side v xs ys : Forall2 call_entry xs ys -> mult_of v (sp_reg_looking (pad_with sp_default (sp_blocks ys))) = mult_of v (flat_map call_regs xs).
Proof.
  intros F. unfold sp_reg_looking. rewrite !mult_of_app, !sp_mult by reflexivity. rewrite mult_flat_map. induction F as [|[[[c a] o] m] [c' e] xs ys H F IH]; [reflexivity|].
  cbn [map fst snd]. rewrite !sumZ_cons, <- IH. destruct H as (Ec & _ & _ & _ & _ & sp & Ee & _ & NE). cbn in Ec, Ee. subst. destruct sp as [|d sp]; [congruence|]. rewrite !sp_init.
  unfold call_regs. rewrite !mult_of_cons. change (mult_of v []) with 0. unfold sp_row. cbn [s_clk s_in s_len s_out]. rewrite !hit_mod.
  replace (a + 8 * Z.of_nat 0) with a by lia. replace (Z.of_nat (length m) - 8 * Z.of_nat 0) with (Z.of_nat (length m)) by lia. change REG_A1 with 11. change REG_A2 with 12. change REG_A3 with 13. unfold hit. lia.
Qed.
Lemma exe_rows c e r : In r (sp_rows c e) -> s_executed r = 1.
Proof. intros I. apply in_map_iff in I as ([k d] & <- & _). unfold s_executed, sp_row. cbn. destruct k; reflexivity. Qed.
Lemma pre_byte m sp k d j : sponge_chain permute m sp -> sp !! k = Some d -> (j < 8)%nat -> at_ (preimage d) j = at_ m (8 * k + j).
Proof.
  intros [SL SC] E J. destruct (SC _ _ E) as (P1 & _). rewrite P1. assert (Hk : (k < length sp)%nat) by (apply lookup_lt_Some in E; exact E). unfold at_.
  rewrite app_nth1 by (rewrite take_length, drop_length; lia). rewrite !nth_lookup, lookup_take, lookup_drop by exact J. reflexivity.
Qed.
Lemma loads_call v c a o m e : call_entry (c, a, o, m) (c, e) ->
  sumZ (map (fun j => mult_of v (map (fun r => ([s_clk r; 0; 1; s_in r + Z.of_nat j; at_ (s_pre r) j], s_executed r)) (sp_rows c e))) (seq 0 8)) = mult_of v (call_loads (c, a, o, m)).
Proof.
  intros (_ & _ & _ & _ & _ & sp & Ee & SC & NE). cbn in Ee. subst e. unfold call_loads.
  transitivity (sumZ (map (fun j => sumZ (map (fun '(k, d) => hit v [c; 0; 1; a + Z.of_nat (8 * k + j); at_ (preimage d) j]) (combine (seq 0 (length sp)) sp))) (seq 0 8))).
  { apply sumZ_ext. intros j _. unfold sp_rows. cbn [p2_addr p2_output_addr p2_len p2_sponge]. rewrite map_map, mult_map. apply sumZ_ext. intros [k d] _. unfold sp_row, s_executed. cbn [s_clk s_in s_pre s_init s_permute].
    replace (b2z (k =? 0)%nat + b2z (negb (k =? 0)%nat)) with 1 by (destruct (k =? 0)%nat; reflexivity). rewrite <- hit_mod. unfold hit.
    replace (a + 8 * Z.of_nat k + Z.of_nat j) with (a + Z.of_nat (8 * k + j)) by lia. reflexivity. }
  set (d0 := mkSponge [] [] 0). rewrite (combine_seq_map d0 sp 0).
  transitivity (sumZ (map (fun j => sumZ (map (fun k => hit v [c; 0; 1; a + Z.of_nat (8 * k + j); at_ m (8 * k + j)]) (seq 0 (length sp)))) (seq 0 8))).
  { apply sumZ_ext. intros j J. apply in_seq in J. rewrite map_map. apply sumZ_ext. intros k I. apply in_seq in I. rewrite Nat.sub_0_r.
    destruct (sp !! k) as [d|] eqn:E; [|apply lookup_ge_None in E; lia]. rewrite (nth_lookup_Some _ _ _ _ E). rewrite (pre_byte m sp k d j SC E) by lia. reflexivity. }
  rewrite sumZ_swap. rewrite (sum_blocks (fun i => hit v [c; 0; 1; a + Z.of_nat i; at_ m i])). destruct SC as [SL _]. replace (8 * length sp)%nat with (length m) by lia.
  rewrite (combine_seq_map 0 m 0), map_map.
  rewrite (map_ext _ (fun i => ([c; 0; 1; a + Z.of_nat i; at_ m i], 1))) by (intros i; rewrite Nat.sub_0_r; reflexivity). rewrite (mult_hits v (fun i => [c; 0; 1; a + Z.of_nat i; at_ m i])). reflexivity.
Qed.
Lemma mem_side v xs ys : Forall2 call_entry xs ys -> mult_of v (sp_mem_looking (pad_with sp_default (sp_blocks ys))) = mult_of v (flat_map call_loads xs).
Proof.
  intros F. unfold sp_mem_looking. rewrite mult_flat_map.
  rewrite (sumZ_ext _ (fun j => sumZ (map (fun y => mult_of v (map (fun r => ([s_clk r; 0; 1; s_in r + Z.of_nat j; at_ (s_pre r) j], s_executed r)) (sp_rows (fst y) (snd y)))) ys))) by (intros j _; apply sp_mult; reflexivity).
  rewrite sumZ_swap, mult_flat_map. induction F as [|[[[c a] o] m] [c' e] xs ys H F IH]; [reflexivity|]. cbn [map]. rewrite !sumZ_cons, IH. f_equal. pose proof H as H'. destruct H' as (Ec & _). cbn in Ec. subst c'. apply loads_call, H.
Qed.

(** ** Permutation table *)
Lemma list_nth_map {A} (d0 : A) l : l = map (fun k => nth k l d0) (seq 0 (length l)).
Proof. induction l as [|x l IH]; [reflexivity|]. cbn [length seq map nth]. f_equal. rewrite <- seq_shift, map_map. exact IH. Qed.
Definition entry12 (y : Z * p2_entry) : Prop := Forall (fun d => state12 (preimage d) /\ output d = permute (preimage d)) (p2_sponge (snd y)).
Lemma calls_entry12 xs ys : Forall2 call_entry xs ys -> Forall entry12 ys.
Proof.
  induction 1 as [|[[[c a] o] m] [c' e] xs ys H F IH]; constructor; [|exact IH]. destruct H as (_ & _ & _ & U & _ & sp & Ee & SC & _). cbn in Ee. subst e. unfold entry12. cbn [snd p2_sponge].
  apply List.Forall_forall. intros d I. apply In_lookup in I as [k E]. split; [apply (sponge_pre12 permute permute12 utf8_ok m sp U SC k d E)|]. destruct SC as [_ SC]. apply (SC _ _ E).
Qed.
Lemma perm_table K v ys : (0 < k_half K)%nat -> (forall l, permute l = poseidon2_permutation K l) -> Forall entry12 ys ->
  mult_of v (perm_looking (pad_with (gen_perm K (repeat 0 12) false) (flat_map (fun '(_, e) => map (fun d => gen_perm K (preimage d) true) (p2_sponge e)) ys))) =
  mult_of v (sp_perm_looked (pad_with sp_default (sp_blocks ys))).
Proof.
  intros H0 HP F. unfold sp_perm_looked. rewrite sp_mult by reflexivity. unfold perm_looking, pad_with. rewrite map_app, mult_of_app, (mult_of_zero v (map _ (repeat _ _))).
  2:{ intros e I. apply in_map_iff in I as (q & <- & I). apply repeat_spec in I. subst q. cbn [snd]. rewrite (proj2 (gen_perm_input _ _ _)). reflexivity. }
  rewrite Z.add_0_r. induction ys as [|[c e] ys IH]; [reflexivity|]. apply Forall_cons_iff in F as [Fe F]. cbn [flat_map map fst snd] in *. rewrite map_app, mult_of_app, sumZ_cons, IH by exact F. f_equal.
  unfold entry12 in Fe. cbn [snd] in Fe. rewrite List.Forall_forall in Fe. unfold sp_rows. set (d0 := mkSponge [] [] 0). rewrite (combine_seq_map d0). rewrite (list_nth_map d0 (p2_sponge e)) at 1.
  rewrite !map_map, !mult_map. apply sumZ_ext. intros k I. apply in_seq in I. rewrite Nat.sub_0_r. destruct (Fe (nth k (p2_sponge e) d0)) as [S12 O]; [apply nth_In; lia|].
  rewrite (proj1 (gen_perm_input _ _ _)), (proj2 (gen_perm_input _ _ _)), gen_perm_output, <- HP, <- O by assumption. unfold sp_row, s_executed. cbn [s_pre s_post s_init s_permute b2z].
  case_decide; [|reflexivity]. destruct (k =? 0)%nat; reflexivity.
Qed.
Lemma perm_sat K ys : (0 < k_half K)%nat -> Forall entry12 ys ->
  trace_sat (perm_air K) (pad_with (gen_perm K (repeat 0 12) false) (flat_map (fun '(_, e) => map (fun d => gen_perm K (preimage d) true) (p2_sponge e)) ys)) /\
  Forall (perm_canon K) (pad_with (gen_perm K (repeat 0 12) false) (flat_map (fun '(_, e) => map (fun d => gen_perm K (preimage d) true) (p2_sponge e)) ys)).
Proof.
  intros H0 F. set (t := pad_with _ _).
  assert (G : forall r, In r t -> exists pre b, r = gen_perm K pre b /\ state12 pre).
  { intros r I. unfold t, pad_with in I. apply in_app_or in I as [I|I].
    - apply in_flat_map in I as ([c e] & I & I'). apply in_map_iff in I' as (d & <- & I'). rewrite List.Forall_forall in F. specialize (F _ I). unfold entry12 in F. cbn [snd] in F. rewrite List.Forall_forall in F.
      exists (preimage d), true. split; [reflexivity|]. apply F, I'.
    - apply repeat_spec in I. exists (repeat 0 12), false. split; [exact I|]. split; [reflexivity|]. repeat (apply List.Forall_cons; [unfold canon; split; [lia|reflexivity]|]). apply List.Forall_nil. }
  split.
  - assert (NE : t <> []) by (apply padded_nonempty). destruct t as [|x l]; [congruence|]. apply sat_pairs_first.
    + apply List.Forall_nil. + reflexivity.
    + intros r r' I. split; [|apply List.Forall_nil]. assert (Ir : In r (x :: l)).
      { apply adj_In_lookup in I as (k & E & E'). apply lookup_lt_Some in E' as L. rewrite app_length in L. cbn [length] in L. rewrite lookup_app_l in E by (cbn [length]; lia). eapply lookup_In; eauto. }
      destruct (G r Ir) as (pre & b & -> & S12). apply (gen_perm_ok K pre b H0 S12).
  - apply List.Forall_forall. intros r I. destruct (G r I) as (pre & b & -> & S12). apply (gen_perm_ok K pre b H0 S12).
Qed.
End WithHash.

(** ** Output bytes *)
Lemma ob_mult v (f : obrow -> list Z) t :
  mult_of v (map (fun r => (f r, o_exe r)) (generate_ob_trace t)) = sumZ (map (fun r => match ob_of r with Some q => hit v (f q) | None => 0 end) t).
Proof.
  unfold generate_ob_trace, pad_with. rewrite map_app, mult_of_app, (mult_of_zero v (map _ (repeat _ _))).
  2:{ intros e I. apply in_map_iff in I as (q & <- & I). apply repeat_spec in I. subst q. reflexivity. }
  rewrite Z.add_0_r. induction t as [|r t IH]; [reflexivity|]. change (omap ob_of (r :: t)) with (match ob_of r with Some y => y :: omap ob_of t | None => omap ob_of t end).
  cbn [map]. rewrite sumZ_cons, <- IH. destruct (ob_of r) as [q|] eqn:E; [|lia]. cbn [map]. rewrite mult_of_cons.
  replace (o_exe q) with 1 by (unfold ob_of in E; destruct (s_gen r =? 1); [injection E as <-; reflexivity|discriminate]). reflexivity.
Qed.
Lemma ob_table v t : Forall (fun r => bit (s_gen r)) t -> mult_of v (ob_looking (generate_ob_trace t)) = mult_of v (sp_out_looked t).
Proof.
  intros F. unfold ob_looking, sp_out_looked. rewrite (ob_mult v (fun r => o_clk r :: o_addr r :: o_fields r)), mult_map. apply sumZ_ext. intros r I. rewrite List.Forall_forall in F. specialize (F r I).
  unfold ob_of. destruct F as [-> | ->]; cbn [Z.eqb Pos.eqb]; [destruct (decide _); reflexivity|reflexivity].
Qed.
Lemma le8_value x : canon x -> reduce_with_powers (le_bytes 8 x) 256 = x.
Proof. intros [L H]. unfold P in H. unfold reduce_with_powers. cbn [le_bytes fold_right]. Z.div_mod_to_equations. lia. Qed.
Lemma ob_sat t : Forall (fun r => state12 (s_post r)) t -> trace_sat ob_air (generate_ob_trace t).
Proof.
  intros F. assert (G : forall r, In r (generate_ob_trace t) -> bit (o_exe r) /\ exists h, length h = 4%nat /\ Forall canon h /\ o_fields r = h /\ o_bytes r = hash_to_bytes h).
  { intros r I. unfold generate_ob_trace, pad_with in I. apply in_app_or in I as [I|I].
    - apply elem_of_list_In, elem_of_list_omap in I as (q & I & E). unfold ob_of in E. destruct (_ =? 1); [|discriminate]. injection E as <-. split; [right; reflexivity|].
      apply elem_of_list_In in I. rewrite List.Forall_forall in F. destruct (F q I) as [L C]. exists (take 4 (s_post q)). split; [rewrite take_length, L; reflexivity|]. split; [apply Forall_take, C|]. split; reflexivity.
    - apply repeat_spec in I. subst r. split; [left; reflexivity|]. exists (repeat 0 4). split; [reflexivity|]. split; [|split; reflexivity]. repeat (apply List.Forall_cons; [unfold canon; split; [lia|reflexivity]|]). apply List.Forall_nil. }
  assert (NE : generate_ob_trace t <> []) by apply padded_nonempty. destruct (generate_ob_trace t) as [|x l]; [congruence|]. apply sat_pairs_first.
  + apply List.Forall_nil. + reflexivity.
  + intros r r' I. split; [|apply List.Forall_nil]. assert (Ir : In r (x :: l)).
    { apply adj_In_lookup in I as (k & E & E'). apply lookup_lt_Some in E' as L. rewrite app_length in L. cbn [length] in L. rewrite lookup_app_l in E by (cbn [length]; lia). eapply lookup_In; eauto. }
    destruct (G r Ir) as (B & h & L & C & Ef & Eb). cbn [a_always ob_air]. rewrite Ef, Eb. do 5 (destruct h as [|? h]; [try discriminate L|]); [|discriminate L].
    repeat (apply Forall_cons_iff in C as [? C]). apply List.Forall_cons; [apply bin_bit, B|]. unfold hash_to_bytes. 
    repeat (apply List.Forall_cons; [apply fz_eq; match goal with |- reduce_with_powers ?a 256 - at_ _ ?k = 0 => match eval cbv [at_ nth] in (at_ [z; z0; z1; z2] k) with ?y => change (reduce_with_powers (le_bytes 8 y) 256 - y = 0); rewrite le8_value by assumption; lia end end|]). apply List.Forall_nil.
Qed.
Lemma sponge_unique permute m sp sp' : sponge_chain permute m sp -> sponge_chain permute m sp' -> sp' = sp.
Proof.
  intros [L C] [L' C']. assert (LL : length sp = length sp') by lia. apply list_eq. intros k. induction k as [k IH] using lt_wf_ind.
  destruct (sp !! k) as [d|] eqn:E.
  - destruct (sp' !! k) as [d'|] eqn:E'; [|apply lookup_ge_None in E'; apply lookup_lt_Some in E; lia]. destruct (C _ _ E) as (P1 & P2 & P3). destruct (C' _ _ E') as (Q1 & Q2 & Q3). f_equal.
    assert (X : preimage d' = preimage d) by (rewrite P1, Q1; destruct k as [|k]; [reflexivity|]; rewrite (IH k) by lia; reflexivity).
    assert (Y : output d' = output d) by congruence. assert (W : gen_output d' = gen_output d) by (rewrite P3, Q3, LL; reflexivity). clear - X Y W.
    destruct d as [p o g], d' as [p' o' g']. cbn in *. congruence.
  - apply lookup_ge_None in E. apply lookup_ge_None. lia.
Qed.
Lemma combine_app_eq {A B} (l1 l2 : list A) (m1 m2 : list B) : length l1 = length m1 -> combine (l1 ++ l2) (m1 ++ m2) = combine l1 m1 ++ combine l2 m2.
Proof. revert m1. induction l1 as [|x l1 IH]; intros [|y m1] L; try discriminate; [reflexivity|]. cbn [app combine]. rewrite IH by (cbn in L; lia). reflexivity. Qed.
Lemma last_only permute m sp : sponge_chain permute m sp -> sp <> [] -> exists d, stdpp.list.last sp = Some d /\ gen_output d = 1 /\ forall F : nat * sponge_data -> Z, (forall k d, gen_output d = 0 -> F (k, d) = 0) ->
  sumZ (map F (combine (seq 0 (length sp)) sp)) = F ((length sp - 1)%nat, d).
Proof.
  intros [_ SC] NE. destruct (exists_last NE) as (l & d & ->). exists d. split; [apply last_snoc|]. rewrite app_length in *. cbn [length] in *. split.
  - destruct (SC (length l) d) as (_ & _ & ->); [rewrite lookup_app_r, Nat.sub_diag by lia; reflexivity|]. replace (S (length l)) with (length l + 1)%nat by lia. rewrite Nat.eqb_refl. reflexivity.
  - intros F HF. rewrite seq_app, combine_app_eq by (rewrite seq_length; reflexivity). cbn [seq combine]. rewrite map_app, sumZ_app. cbn [map]. rewrite sumZ_cons. change (sumZ []) with 0.
    rewrite sumZ_zero; [replace (length l + 1 - 1)%nat with (length l) by lia; cbn; lia|]. intros [k x] I. apply HF. apply In_lookup in I as [j E]. rewrite combine_seq_lookup in E.
    destruct (l !! j) as [y|] eqn:Ey; [|discriminate]. injection E as _ <-. assert (Hj : (j < length l)%nat) by (apply lookup_lt_Some in Ey; exact Ey). destruct (SC j y) as (_ & _ & ->); [rewrite lookup_app_l by exact Hj; exact Ey|].
    destruct (Nat.eqb_spec (S j) (length l + 1)); [lia|reflexivity].
Qed.
Lemma stores_call permute v c a o m e : (forall l, state12 (permute l)) -> call_entry permute (c, a, o, m) (c, e) -> exists d, is_digest permute m d /\
  sumZ (map (fun k => sumZ (map (fun r => match ob_of r with Some q => hit v [o_clk q; 1; 0; o_addr q + Z.of_nat k; at_ (o_bytes q) k] | None => 0 end) (sp_rows c e))) (seq 0 32)) = mult_of v (digest_stores (c, o, d)).
Proof.
  intros P12 (_ & _ & _ & U & _ & sp & Ee & SC & NE). cbn in Ee. subst e. destruct (last_only permute m sp SC NE) as (d & E & Gd & Sd). exists (flat_map (le_bytes 8) (take 4 (output d))). split; [exists sp, d; auto|].
  assert (L32 : length (hash_to_bytes (take 4 (output d))) = 32%nat).
  { rewrite (hash_to_bytes_length permute (fun _ => true)), take_length. rewrite last_lookup in E. destruct (sponge12 permute P12 (fun _ => true) m sp SC _ _ E) as [_ [-> _]]. reflexivity. }
  change (flat_map (le_bytes 8) (take 4 (output d))) with (hash_to_bytes (take 4 (output d))). unfold digest_stores. rewrite (combine_seq_map 0), map_map, L32.
  rewrite (map_ext _ (fun k => ([c; 1; 0; o + Z.of_nat k; at_ (hash_to_bytes (take 4 (output d))) k], 1))) by (intros k; rewrite Nat.sub_0_r; reflexivity).
  rewrite (mult_hits v (fun k => [c; 1; 0; o + Z.of_nat k; at_ (hash_to_bytes (take 4 (output d))) k])). apply sumZ_ext. intros k _. unfold sp_rows. cbn [p2_addr p2_output_addr p2_len p2_sponge]. rewrite map_map.
  rewrite (Sd (fun x => match ob_of (let '(j, y) := x in sp_row c a o (Z.of_nat (length m)) j y) with Some q => hit v [o_clk q; 1; 0; o_addr q + Z.of_nat k; at_ (o_bytes q) k] | None => 0 end)).
  - unfold ob_of, sp_row. cbn [s_gen]. rewrite Gd. cbn [Z.eqb Pos.eqb o_clk o_addr o_bytes s_clk s_out s_post]. apply hit_mod.
  - intros j y Gy. unfold ob_of, sp_row. cbn [s_gen]. rewrite Gy. reflexivity.
Qed.
Lemma stores_side permute xs ys : (forall l, state12 (permute l)) -> Forall2 (call_entry permute) xs ys -> exists ds, Forall2 (digest_of permute) xs ds /\
  forall v, mult_of v (ob_mem_looking (generate_ob_trace (pad_with sp_default (sp_blocks ys)))) = mult_of v (flat_map digest_stores ds).
Proof.
  intros P12 F.
  assert (Q : exists ds, Forall2 (digest_of permute) xs ds /\ forall v, sumZ (map (fun y : Z * p2_entry => sumZ (map (fun k => sumZ (map (fun r => match ob_of r with Some q => hit v [o_clk q; 1; 0; o_addr q + Z.of_nat k; at_ (o_bytes q) k] | None => 0 end) (sp_rows (fst y) (snd y)))) (seq 0 32))) ys) = mult_of v (flat_map digest_stores ds)).
  { induction F as [|[[[c a] o] m] [c' e] xs ys H F (ds & IH1 & IH2)]; [exists []; split; [constructor|reflexivity]|]. pose proof H as H'. destruct H' as (Ec & _). cbn in Ec. subst c'.
    destruct H as (H1 & H2 & H3 & H4 & H5 & sp & Ee & SC & NE). destruct (last_only permute m sp SC NE) as (d & E & _).
    assert (Hd : forall v, sumZ (map (fun k => sumZ (map (fun r => match ob_of r with Some q => hit v [o_clk q; 1; 0; o_addr q + Z.of_nat k; at_ (o_bytes q) k] | None => 0 end) (sp_rows c e))) (seq 0 32)) = mult_of v (digest_stores (c, o, flat_map (le_bytes 8) (take 4 (output d))))).
    { intros v. destruct (stores_call permute v c a o m e P12) as (d' & (sp' & dd & SC' & E' & ->) & Q); [repeat (split; auto); exists sp; auto|]. rewrite Q.
      assert (sp' = sp) as -> by (apply (sponge_unique permute m); assumption). rewrite E in E'. injection E' as <-. reflexivity. }
    exists ((c, o, flat_map (le_bytes 8) (take 4 (output d))) :: ds). split; [constructor; [split; [reflexivity|split; [reflexivity|exists sp, d; auto]]|exact IH1]|].
    intros v. cbn [map flat_map fst snd]. rewrite sumZ_cons, IH2, Hd, mult_of_app. reflexivity. }
  destruct Q as (ds & Q1 & Q2). exists ds. split; [exact Q1|]. intros v. rewrite <- Q2. unfold ob_mem_looking. rewrite mult_flat_map.
  rewrite (sumZ_ext _ (fun k => sumZ (map (fun y : Z * p2_entry => sumZ (map (fun r => match ob_of r with Some q => hit v [o_clk q; 1; 0; o_addr q + Z.of_nat k; at_ (o_bytes q) k] | None => 0 end) (sp_rows (fst y) (snd y)))) ys))).
  - rewrite sumZ_swap. reflexivity.
  - intros k _. rewrite (ob_mult v (fun r => [o_clk r; 1; 0; o_addr r + Z.of_nat k; at_ (o_bytes r) k])). unfold pad_with. rewrite map_app, sumZ_app, (sumZ_zero _ (repeat _ _)), Z.add_0_r.
    + unfold sp_blocks. clear. induction ys as [|[c e] ys IH]; [reflexivity|]. cbn [flat_map map fst snd]. rewrite map_app, sumZ_app, sumZ_cons, IH. reflexivity.
    + intros r I. apply repeat_spec in I. subst r. reflexivity.
Qed.

(** ** Canonical columns *)
Lemma zeros12 : state12 (repeat 0 12).
Proof. split; [reflexivity|]. repeat (apply List.Forall_cons; [unfold canon; split; [lia|reflexivity]|]). apply List.Forall_nil. Qed.
Lemma blocks_canon permute xs ys : (forall l, state12 (permute l)) -> Forall2 (call_entry permute) xs ys -> Forall sp_canon (pad_with sp_default (sp_blocks ys)).
Proof.
  intros P12 F. unfold pad_with. apply List.Forall_app. split.
  - induction F as [|[[[c a] o] m] [c' e] xs ys H F IH]; [apply List.Forall_nil|]. unfold sp_blocks in *. cbn [flat_map]. apply List.Forall_app. split; [|exact IH].
    destruct H as (_ & U1 & U2 & U & B & sp & Ee & SC & NE). cbn in Ee. subst e. apply List.Forall_forall. intros r I. apply In_lookup in I as [k E]. rewrite sp_rows_lookup in E. cbn [p2_sponge p2_addr p2_output_addr p2_len] in E.
    destruct (sp !! k) as [d|] eqn:Ed; [|discriminate]. cbn [option_map] in E. injection E as <-. pose proof (sponge_pre12 permute P12 (fun _ => true) m sp U SC k d Ed) as D1. destruct (sponge12 permute P12 (fun _ => true) m sp SC k d Ed) as [_ D2].
    destruct SC as [SL SC]. destruct (SC _ _ Ed) as (_ & _ & G). assert (Lk : (k < length sp)%nat) by (apply lookup_lt_Some in Ed; exact Ed). unfold sp_row, sp_canon. cbn [s_clk s_init s_permute s_in s_out s_len s_pre s_post s_gen].
    split; [unfold canon; apply Z.mod_pos_bound; reflexivity|]. split; [destruct k; unfold canon, P; cbn; lia|]. split; [destruct k; unfold canon, P; cbn; lia|]. unfold u32 in *. split; [unfold canon, P; lia|]. split; [unfold canon, P; lia|]. split; [unfold canon, P; lia|].
    split; [exact D1|]. split; [exact D2|]. rewrite G. destruct (_ =? _)%nat; unfold canon, P; lia.
  - apply List.Forall_forall. intros r I. apply repeat_spec in I. subst r. unfold sp_canon, sp_default. cbn [s_clk s_init s_permute s_in s_out s_len s_pre s_post s_gen].
    assert (C0 : canon 0) by (unfold canon, P; lia). pose proof zeros12 as Z12. auto 10.
Qed.
Lemma gens_bit t : Forall sp_canon t -> trace_sat sponge_air t -> Forall (fun r => bit (s_gen r)) t.
Proof.
  intros C ST. apply List.Forall_forall. intros r I. rewrite List.Forall_forall in C. destruct (C r I) as (_ & _ & _ & _ & _ & _ & _ & _ & C9). apply In_lookup in I as [k E].
  destruct t as [|x l]; [discriminate|]. assert (L : (S k < length ((x :: l) ++ [x]))%nat) by (apply lookup_lt_Some in E; rewrite app_length; cbn [length] in *; lia).
  apply lookup_lt_is_Some in L as [r' E']. pose proof (sat_always _ _ _ _ _ ST (adj_lookup_In _ k r r' ltac:(rewrite lookup_app_l; [exact E|apply lookup_lt_Some in E; exact E]) E')) as X.
  cbn [a_always sponge_air] in X. apply List.Forall_app in X as [X _]. do 2 apply Forall_cons_iff in X as [_ X]. apply Forall_cons_iff in X as [X _]. apply binary_canon; assumption.
Qed.
Lemma le_bytes_canon x : Forall canon (le_bytes 8 x).
Proof. cbn [le_bytes]. repeat (apply List.Forall_cons; [unfold canon, P; match goal with |- 0 <= ?a mod 256 < _ => pose proof (Z.mod_pos_bound a 256 ltac:(lia)); lia end|]). apply List.Forall_nil. Qed.
Lemma ob_trace_canon t : Forall sp_canon t -> Forall ob_canon (generate_ob_trace t).
Proof.
  intros F. apply List.Forall_forall. intros r I. unfold generate_ob_trace, pad_with in I. apply in_app_or in I as [I|I].
  - apply elem_of_list_In, elem_of_list_omap in I as (q & I & E). unfold ob_of in E. destruct (_ =? 1); [|discriminate]. injection E as <-. apply elem_of_list_In in I. rewrite List.Forall_forall in F. destruct (F q I) as (C1 & _ & _ & _ & C5 & _ & _ & C8 & _).
    unfold ob_canon. cbn [o_exe o_clk o_addr o_fields o_bytes]. destruct C8 as [L C8]. split; [unfold canon, P; lia|]. split; [exact C1|]. split; [exact C5|]. split; [rewrite take_length, L; reflexivity|]. split; [apply Forall_take, C8|].
    split; [rewrite (hash_to_bytes_length (fun l => l) (fun _ => true)), take_length, L; reflexivity|]. unfold hash_to_bytes. apply List.Forall_forall. intros b Ib. apply in_flat_map in Ib as (x & _ & Ib). pose proof (le_bytes_canon x) as Cx. rewrite List.Forall_forall in Cx. apply Cx, Ib.
  - apply repeat_spec in I. subst r. unfold ob_canon, ob_default. cbn [o_exe o_clk o_addr o_fields o_bytes]. assert (C0 : canon 0) by (unfold canon, P; lia). repeat (split; [first [exact C0|reflexivity|repeat (apply List.Forall_cons; [exact C0|]); apply List.Forall_nil]|]).
    repeat (apply List.Forall_cons; [exact C0|]); apply List.Forall_nil.
Qed.
