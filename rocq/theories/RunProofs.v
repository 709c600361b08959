(** Proofs about runs. *)
From Verif Require Import RunSpec DecodeProofs ExecProofs IsaProofs StepProofs LoadProofs.
Open Scope Z_scope.
Ltac Zify.zify_post_hook ::= Z.div_mod_to_equations.

Lemma good_program_ok p : good_program p -> program_ok p.
Proof. intros []; auto. Qed.

Lemma state_new_ok p t : good_program p -> good_tapes t -> state_ok (state_new p t).
Proof.
  intros HP []; pose proof (gp_entry _ HP) as HE. unfold tape_ok. constructor; cbn -[repeat]; auto;
    try (split; [assumption|cbn; lia]).
  - apply Forall_forall. intros x Hx. apply repeat_spec in Hx as ->. unfold u32; lia.
  - intros a b Hab. apply lookup_union_Some_raw in Hab as [H1|[_ H1]]; [apply (gp_ro _ HP _ _ H1)|apply (gp_rw _ HP _ _ H1)].
Qed.

Section Env.
  Variable permute : list Z -> list Z.
  Variable utf8_ok : list Z -> bool.
  Notation reach := (reach permute utf8_ok).
  Notation exec1 := (execute_instruction permute utf8_ok).
  Notation run := (step permute utf8_ok).

  Lemma exec_ok s p a i s' : state_ok s -> program_ok p -> exec1 s p = Ok (a, i, s') -> state_ok s'.
  Proof.
    intros OK P E. destruct (execute_inv _ _ _ _ _ _ _ OK P E) as (_ & _ & a0 & s0 & _ & F & -> & _).
    apply bump_clock_ok, F.
  Qed.
  Lemma reach_ok p s s' : state_ok s -> program_ok p -> reach p s s' -> state_ok s'.
  Proof. intros OK P. induction 1; auto. eapply exec_ok; eauto. Qed.

  Lemma reach_ro p s s' : state_ok s -> program_ok p -> reach p s s' ->
    is_read_only (smem s') = is_read_only (smem s) /\
    (forall x, x ∈ is_read_only (smem s) -> mdata (smem s') !! x = mdata (smem s) !! x).
  Proof.
    intros OK P R. induction R as [|s1 a i s2 R IH Hh E]; auto.
    destruct (execute_inv _ _ _ _ _ _ _ (reach_ok _ _ _ OK P R) P E) as (_ & _ & a0 & s0 & _ & F & -> & _).
    destruct IH as [IH1 IH2]. destruct F. cbn. rewrite fr_ro, IH1. split; auto.
    intros x Hx. rewrite fr_keep by (rewrite IH1; auto). auto.
  Qed.

  Lemma run_unfold limit p fuel s rec : run limit p fuel s = Ok rec ->
    (halted s = true /\ rec = mkRecord [] s) \/
    (halted s = false /\ exists fuel' a i s' rec', fuel = S fuel' /\ exec1 s p = Ok (a, i, s') /\
      run limit p fuel' s' = Ok rec' /\ rec = mkRecord (mkRow s a i :: executed rec') (last_state rec') /\
      match limit with Some l => clk s' <> l | None => True end).
  Proof.
    destruct fuel as [|fuel]; cbn [step]; [discriminate|]. destruct (halted s); [intros [= <-]; auto|].
    destruct (exec1 s p) as [[[a i] s']| |] eqn:E; cbn [rbind]; try discriminate.
    destruct (match limit with Some l => clk s' =? l | None => false end) eqn:L; [discriminate|].
    destruct (run limit p fuel s') as [rec'| |] eqn:R; cbn [rbind]; try discriminate.
    intros [= <-]. right. split; auto. exists fuel, a, i, s', rec'. repeat split; auto.
    destruct limit; auto. apply Z.eqb_neq; auto.
  Qed.

  Lemma state_at_S r rows l k : state_at (mkRecord (r :: rows) l) (S k) = state_at (mkRecord rows l) k.
  Proof. reflexivity. Qed.

  Lemma run_first limit p fuel s rec : run limit p fuel s = Ok rec -> state_at rec 0 = Some s.
  Proof.
    intros R. apply run_unfold in R as [[_ ->]|(_ & f' & a & i & s' & rec' & _ & _ & _ & -> & _)]; reflexivity.
  Qed.
  Lemma run_record limit p fuel : forall s rec, state_ok s -> program_ok p -> run limit p fuel s = Ok rec ->
    halted (last_state rec) = true /\
    (forall k r, executed rec !! k = Some r ->
       halted (rstate r) = false /\ clk (rstate r) = clk s + Z.of_nat k /\
       exists s', state_at rec (S k) = Some s' /\ exec1 (rstate r) p = Ok (raux r, rinst r, s')) /\
    clk (last_state rec) = clk s + Z.of_nat (length (executed rec)).
  Proof.
    induction fuel as [|fuel IH]; intros s rec OK P R; [discriminate|].
    pose proof (run_unfold _ _ _ _ _ R) as [[H ->]|(H & f' & a & i & s' & rec' & [= <-] & E & R' & -> & _)].
    - cbn. split; auto. split; [|lia]. intros k r Hk. rewrite lookup_nil in Hk. discriminate.
    - destruct (execute_inv _ _ _ _ _ _ _ OK P E) as (_ & _ & a0 & s0 & _ & F & Es & _).
      assert (Hc : clk s' = clk s + 1) by (rewrite Es; cbn; rewrite (fr_clk _ _ _ F); reflexivity).
      destruct (IH s' rec' (exec_ok _ _ _ _ _ OK P E) P R') as (I1 & I2 & I3).
      cbn [executed last_state length]. split; auto. split; [|rewrite I3; lia].
      intros [|k] r Hk; cbn in Hk.
      + injection Hk as <-. cbn. split; auto. split; [lia|]. exists s'. split; [|exact E].
        rewrite state_at_S. replace (mkRecord (executed rec') (last_state rec')) with rec' by (destruct rec'; reflexivity).
        eapply run_first; eauto.
      + destruct (I2 k r Hk) as (J1 & J2 & s'' & J3 & J4). split; auto. split; [lia|]. exists s''. split; [|exact J4].
        rewrite state_at_S. replace (mkRecord (executed rec') (last_state rec')) with rec' by (destruct rec'; reflexivity). auto.
  Qed.

  Lemma run_reach limit p fuel : forall s0 s rec, reach p s0 s -> run limit p fuel s = Ok rec ->
    Forall (fun r => reach p s0 (rstate r)) (executed rec) /\ reach p s0 (last_state rec).
  Proof.
    induction fuel as [|fuel IH]; intros s0 s rec R0 R; [discriminate|].
    pose proof (run_unfold _ _ _ _ _ R) as [[H ->]|(H & f' & a & i & s' & rec' & [= <-] & E & R' & -> & _)].
    - cbn. auto.
    - destruct (IH s0 s' rec') as [I1 I2]; auto. { eapply reach_step; eauto. }
      cbn. split; auto.
  Qed.

  (** more fuel, or dropping the debug limit, does not change a successful run *)
  Lemma run_det l1 l2 p f1 : forall f2 s r1 r2, run l1 p f1 s = Ok r1 -> run l2 p f2 s = Ok r2 -> r1 = r2.
  Proof.
    induction f1 as [|f1 IH]; intros f2 s r1 r2 R1 R2; [discriminate|].
    apply run_unfold in R1 as [[H ->]|(H & f' & a & i & s' & rec' & [= <-] & E & R' & -> & _)];
    apply run_unfold in R2 as [[H2 ->]|(H2 & f2' & a2 & i2 & s2' & rec2' & -> & E2 & R2' & -> & _)]; try congruence.
    rewrite E in E2. injection E2 as <- <- <-. rewrite (IH _ _ _ _ R' R2'). reflexivity.
  Qed.

  (** completeness of fuel: a halted state reached in n steps gives a record for fuel > n *)
  Lemma run_exists p s s' : reach p s s' -> halted s' = true -> exists fuel rec, run None p fuel s = Ok rec /\ last_state rec = s'.
  Proof.
    intros R H.
    assert (G : forall s1, reach p s s1 -> forall f rec, run None p f s1 = Ok rec -> exists f' rec', run None p f' s = Ok rec' /\ last_state rec' = last_state rec).
    { induction 1 as [|s1 a i s2 R1 IH Hh E]; intros f rec Hr; eauto.
      assert (R2 : run None p (S f) s1 = Ok (mkRecord (mkRow s1 a i :: executed rec) (last_state rec))).
      { cbn [step]. rewrite Hh, E. cbn [rbind]. rewrite Hr. reflexivity. }
      destruct (IH _ _ R2) as (f' & rec' & A & B). eauto. }
    destruct (G s' R 1%nat (mkRecord [] s')) as (f & rec & A & B); eauto. cbn. rewrite H. reflexivity.
  Qed.

  (** tapes over a run *)
  Lemma take_drop_app {A} n m (l : list A) : take n l ++ take m (drop n l) = take (n + m) l.
  Proof.
    revert n; induction l as [|x l IH]; intros n.
    - rewrite drop_nil, !take_nil. reflexivity.
    - destruct n; cbn; auto. f_equal. apply IH.
  Qed.
  Lemma run_tapes limit p fuel o : forall s rec t, state_ok s -> program_ok p -> run limit p fuel s = Ok rec ->
    stream_tape o s = Some t ->
    delivered o (executed rec) = take (length (delivered o (executed rec))) (drop (Z.to_nat (read_index t)) (tdata t)) /\
    stream_tape o (last_state rec) = Some (mkTape (tdata t) (read_index t + Z.of_nat (length (delivered o (executed rec))))).
  Proof.
    induction fuel as [|fuel IH]; intros s rec t OK P R T; [discriminate|].
    pose proof (run_unfold _ _ _ _ _ R) as [[H ->]|(H & f' & a & i & s' & rec' & [= <-] & E & R' & -> & _)].
    - cbn. rewrite T, Z.add_0_r. destruct t; auto.
    - destruct (execute_inv _ _ _ _ _ _ _ OK P E) as (_ & _ & a0 & s0 & _ & F & Es & _ & Ea).
      pose proof (exec_ok _ _ _ _ _ OK P E) as OK'.
      destruct (fr_tape _ _ _ F o t T) as [T1 T2].
      assert (T1' : stream_tape o s' = stream_tape o s0) by (rewrite Es; destruct o; reflexivity).
      rewrite <- T1' in T1. destruct (IH s' rec' _ OK' P R' T1) as [I1 I2].
      cbn [tdata read_index] in *.
      cbn [executed last_state]. unfold delivered in *. cbn [map concat raux].
      replace (storage_device_entry a) with (storage_device_entry a0) by (rewrite Ea; reflexivity).
      set (D := concat _) in *.
      assert (Hi : 0 <= read_index t <= Z.of_nat (length (tdata t))).
      { assert (tape_ok t) as [_ ?]; auto. destruct OK. destruct o; cbn in T; try discriminate; injection T as <-; auto. }
      set (x := match storage_device_entry a0 with Some e => if bool_decide (sd_opcode e = o) then sd_data e else [] | None => [] end).
      assert (Hx : x = take (length x) (drop (Z.to_nat (read_index t)) (tdata t)) /\
         match storage_device_entry a0 with Some e => if bool_decide (sd_opcode e = o) then Z.of_nat (length (sd_data e)) else 0 | None => 0 end = Z.of_nat (length x)).
      { unfold x. destruct (storage_device_entry a0) as [e|]; [|cbn; auto]. case_bool_decide; [|cbn; auto]. auto. }
      destruct Hx as [Hx1 Hx2]. rewrite Hx2 in *.
      rewrite app_length. split.
      + rewrite I1. rewrite Hx1 at 1.
        replace (Z.to_nat (read_index t + Z.of_nat (length x))) with (Z.to_nat (read_index t) + length x)%nat by lia.
        rewrite <- drop_drop. rewrite take_drop_app.
        rewrite take_length. f_equal. f_equal.
        apply (f_equal length) in I1. rewrite take_length in I1.
        replace (Z.to_nat (read_index t + Z.of_nat (length x))) with (Z.to_nat (read_index t) + length x)%nat in I1 by lia.
        rewrite <- drop_drop in I1. lia.
      + rewrite I2. f_equal. f_equal. lia.
  Qed.

  (** constant tapes never change *)
  Lemma reach_constant p s s' o : state_ok s -> program_ok p -> reach p s s' -> constant_tape o s' = constant_tape o s.
  Proof.
    intros OK P R. induction R as [|s1 a i s2 R IH Hh E]; auto.
    destruct (execute_inv _ _ _ _ _ _ _ (reach_ok _ _ _ OK P R) P E) as (_ & _ & a0 & s0 & _ & F & -> & _).
    rewrite <- IH, <- (fr_fixed _ _ _ F). destruct o; reflexivity.
  Qed.
End Env.

(** ** M extension *)
Lemma quot_rem_bounds x y : -2147483648 <= x < 2147483648 -> -2147483648 <= y < 2147483648 -> y <> 0 ->
  ~ (x = -2147483648 /\ y = -1) -> -2147483648 <= Z.quot x y < 2147483648.
Proof.
  intros Hx Hy Hn Ho.
  assert (x = y * Z.quot x y + Z.rem x y) by (apply Z.quot_rem; lia).
  pose proof (Z.rem_bound_abs x y Hn).
  assert (0 <= Z.rem x y * x) by (apply Z.rem_sign_mul; lia).
  nia.
Qed.
Lemma sg_word x : -2147483648 <= x < 2147483648 -> sg (word x) = x.
Proof.
  intros. unfold sg, word, M32. change (2^31) with 2147483648. change (2^32) with 4294967296.
  destruct (Z.ltb_spec (x mod 4294967296) 2147483648); lia.
Qed.

Lemma m_ext_alu o a b : is_m (op_of_alu o) = true -> u32 a -> u32 b -> m_ext (op_of_alu o) a b (alu_sem o a b).
Proof.
  intros Hm Ha Hb.
  assert (U : u32 (alu_sem o a b)).
  { destruct (alu_fun (op_of_alu o)) as [f|] eqn:Ef; [|destruct o; discriminate].
    rewrite <- (alu_sem_ok o f a b Ef Ha Hb). eapply alu_fun_u32; eauto. }
  split; auto. pose proof (sg_range a Ha) as Sa. pose proof (sg_range b Hb) as Sb.
  assert (Q : forall x, x mod 2 ^ 32 = x - x / 2 ^ 32 * 2 ^ 32) by (intros; rewrite Z.mod_eq by lia; lia).
  destruct o; try discriminate Hm; cbn [op_of_alu alu_sem].
  - exists (a * b / 2 ^ 32). unfold word, M32. rewrite Q. lia.
  - exists ((sg a * sg b) mod 2 ^ 32). split; [apply Z.mod_pos_bound; lia|].
    rewrite sg_word. { unfold M32. rewrite Q. lia. } unfold M32. change (2^32) with 4294967296. nia.
  - exists ((sg a * b) mod 2 ^ 32). split; [apply Z.mod_pos_bound; lia|].
    unfold u32 in Hb. rewrite sg_word. { unfold M32. rewrite Q. lia. } unfold M32. change (2^32) with 4294967296. nia.
  - exists ((a * b) mod 2 ^ 32). split; [apply Z.mod_pos_bound; lia|].
    unfold u32 in *. rewrite word_id. { unfold M32. rewrite Q. lia. } unfold u32, M32. change (2^32) with 4294967296. nia.
  - unfold overflow. destruct (Z.eqb_spec b 0) as [->|].
    + split; [reflexivity|]. split; [|congruence]. intros [_ HO]. discriminate.
    + split; [congruence|]. assert (sg b <> 0) by (intros E; apply Z.eqb_eq in E; rewrite sg_zero in E by auto; apply Z.eqb_eq in E; auto).
      split.
      * intros [-> ->]. reflexivity.
      * intros _ No. change (2^31) with 2147483648 in No. exists (Z.rem (sg a) (sg b)).
        rewrite sg_word by (apply quot_rem_bounds; auto). split; [apply Z.quot_rem; auto|].
        split; [apply Z.rem_bound_abs; auto|apply Z.rem_sign_mul; auto].
  - destruct (Z.eqb_spec b 0); [reflexivity|]. unfold u32 in *. exists (a mod b). split; [apply Z.mod_pos_bound; lia|apply Z.div_mod; lia].
  - unfold overflow. destruct (Z.eqb_spec b 0) as [->|].
    + split; [reflexivity|]. split; [|congruence]. intros [_ H]. discriminate.
    + split; [congruence|]. assert (sg b <> 0) by (intros E; apply Z.eqb_eq in E; rewrite sg_zero in E by auto; apply Z.eqb_eq in E; auto).
      split.
      * intros [-> ->]. reflexivity.
      * intros _ No. change (2^31) with 2147483648 in No. exists (Z.quot (sg a) (sg b)).
        pose proof (Z.rem_bound_abs (sg a) (sg b) H).
        rewrite sg_word by lia. split; [apply Z.quot_rem; auto|].
        split; [auto|apply Z.rem_sign_mul; auto].
  - destruct (Z.eqb_spec b 0); [reflexivity|]. unfold u32 in *. exists (a / b). split; [apply Z.mod_pos_bound; lia|apply Z.div_mod; lia].
Qed.
