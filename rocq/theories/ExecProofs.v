(** Basic lemmas about states and the arithmetic of single instructions. *)
From Verif Require Import RunnerSpec.
Open Scope Z_scope.
Ltac Zify.zify_post_hook ::= Z.div_mod_to_equations.

Definition wreg (s : state) (i v : Z) : state :=
  if i =? 0 then s else upd_regs s (<[Z.to_nat i := v]> (registers s)).

Lemma reg_lookup s i : state_ok s -> is_reg i -> registers s !! Z.to_nat i = Some (reg s i).
Proof.
  intros OK Hi. unfold reg. destruct (registers s !! Z.to_nat i) eqn:E.
  - rewrite (nth_lookup_Some _ _ _ _ E). reflexivity.
  - apply lookup_ge_None in E. rewrite (ok_len _ OK) in E. unfold is_reg in Hi. lia.
Qed.
Lemma reg_u32 s i : state_ok s -> is_reg i -> u32 (reg s i).
Proof. intros OK Hi. eapply Forall_lookup_1; [apply (ok_regs _ OK)|apply reg_lookup; auto]. Qed.
Lemma get_reg_ok s i : state_ok s -> is_reg i -> get_reg s i = Ok (reg s i).
Proof. intros OK Hi. unfold get_reg. rewrite reg_lookup by auto. reflexivity. Qed.
Lemma reg_0 s : state_ok s -> reg s 0 = 0.
Proof. intros OK. assert (is_reg 0) by (unfold is_reg; lia). pose proof (reg_lookup s 0 OK H) as E.
  change (Z.to_nat 0) with 0%nat in E. rewrite (ok_x0 _ OK) in E. congruence. Qed.

Lemma set_reg_ok s i v : state_ok s -> is_reg i -> set_reg s i v = Ok (wreg s i v).
Proof.
  intros OK Hi. unfold set_reg, wreg. destruct (i =? 0); auto.
  rewrite (ok_len _ OK). unfold is_reg in Hi. destruct (Nat.ltb_spec (Z.to_nat i) 32); auto; lia.
Qed.
Lemma set_reg_len s i v : length (registers s) = 32%nat -> is_reg i -> set_reg s i v = Ok (wreg s i v).
Proof.
  intros OK Hi. unfold set_reg, wreg. destruct (i =? 0); auto.
  rewrite OK. unfold is_reg in Hi. destruct (Nat.ltb_spec (Z.to_nat i) 32); auto; lia.
Qed.
Lemma reg_wreg s i v r : length (registers s) = 32%nat -> is_reg i -> is_reg r ->
  reg (wreg s i v) r = wr (reg s) i v r.
Proof.
  intros OK Hi Hr. unfold wreg, wr, is_reg in *. destruct (Z.eqb_spec i 0) as [->|].
  - rewrite andb_false_r. reflexivity.
  - rewrite andb_true_r. unfold reg. cbn [registers upd_regs].
    rewrite !nth_lookup. destruct (Z.eqb_spec r i) as [->|].
    + rewrite list_lookup_insert by lia. reflexivity.
    + rewrite list_lookup_insert_ne by lia. reflexivity.
Qed.
Lemma wreg_ok s i v : state_ok s -> is_reg i -> u32 v -> state_ok (wreg s i v).
Proof.
  intros OK Hi Hv. unfold wreg. destruct (Z.eqb_spec i 0); [exact OK|].
  destruct OK. constructor; cbn [registers upd_regs pc smem private_tape public_tape call_tape event_tape
    events_commitment_tape cast_list_commitment_tape self_prog_id_tape]; auto.
  - rewrite insert_length; auto.
  - apply Forall_insert; auto.
  - rewrite list_lookup_insert_ne; auto. unfold is_reg in Hi. lia.
Qed.
Lemma set_pc_ok s v : state_ok s -> u32 v -> state_ok (set_pc s v).
Proof. intros [] ?. constructor; cbn; auto. Qed.
Lemma wrap32_u32 z : u32 (wrap32 z).
Proof. unfold u32, wrap32. lia. Qed.
Lemma bump_pc_ok s : state_ok s -> state_ok (bump_pc s).
Proof. intros. apply set_pc_ok; auto. apply wrap32_u32. Qed.
Lemma bump_clock_ok s : state_ok s -> state_ok (bump_clock s).
Proof. intros []. constructor; cbn; auto. Qed.
Lemma halt_ok s : state_ok s -> state_ok (halt s).
Proof. intros []. constructor; cbn; auto. Qed.
Lemma load_u8_u8 s a : state_ok s -> u8 (load_u8 s a).
Proof.
  intros OK. unfold load_u8. destruct (mdata (smem s) !! a) eqn:E; cbn.
  - apply (ok_mem _ OK _ _ E).
  - unfold u8; lia.
Qed.

(** fields of [wreg] *)
Lemma wreg_fields s i v :
  pc (wreg s i v) = pc s /\ smem (wreg s i v) = smem s /\ clk (wreg s i v) = clk s /\ same_devices s (wreg s i v).
Proof. unfold wreg, same_devices; destruct (i =? 0); cbn; auto 20. Qed.

(** Bytes *)
Definition put (s : state) (a b : Z) : state :=
  upd_mem s (mkMem (<[a := b]> (mdata (smem s))) (is_read_only (smem s))).
Lemma put_ok s a b : state_ok s -> u32 a -> u8 b -> state_ok (put s a b).
Proof.
  intros [] ? ?. constructor; cbn; auto. apply map_Forall_insert_2; auto.
Qed.
Lemma load_put s a b x : load_u8 (put s a b) x = if x =? a then b else load_u8 s x.
Proof.
  unfold load_u8, put. cbn. destruct (Z.eqb_spec x a) as [->|].
  - rewrite lookup_insert. reflexivity.
  - rewrite lookup_insert_ne by auto. reflexivity.
Qed.

(** store_bytes: either everything is written, or the first read-only address is reported *)
Fixpoint puts (s : state) (l : list (Z * Z)) : state :=
  match l with [] => s | (a, b) :: r => puts (put s a b) r end.
Lemma puts_same l s :
  pc (puts s l) = pc s /\ registers (puts s l) = registers s /\ clk (puts s l) = clk s /\ same_devices s (puts s l).
Proof.
  revert s; induction l as [|[a b] l IH]; intros s; cbn.
  - unfold same_devices; auto 20.
  - destruct (IH (put s a b)) as (-> & -> & -> & H). unfold same_devices in *. cbn in *. auto.
Qed.
Lemma puts_ro l s : is_read_only (smem (puts s l)) = is_read_only (smem s).
Proof. destruct (puts_same l s) as (_ & _ & _ & H). apply H. Qed.
Lemma store_bytes_spec l s :
  (exists a, a ∈ map fst l /\ a ∈ is_read_only (smem s) /\ store_bytes s l = Panic (PReadOnly a)) \/
  (Forall (fun a => a ∉ is_read_only (smem s)) (map fst l) /\ store_bytes s l = Ok (puts s l)).
Proof.
  revert s; induction l as [|[a b] l IH]; intros s; cbn.
  - right. auto.
  - unfold store_u8. destruct (decide (a ∈ is_read_only (smem s))) as [Ha|Ha].
    + left. exists a. cbn. split; [left|]. auto.
    + cbn. destruct (IH (put s a b)) as [(x & Hx & Hr & E)|(Hf & E)].
      * left. exists x. split; [right; auto|]. auto.
      * right. split; [constructor; auto|]. exact E.
Qed.
Lemma puts_ok l s : state_ok s -> Forall (fun ab => u32 (fst ab) /\ u8 (snd ab)) l -> state_ok (puts s l).
Proof.
  revert s; induction l as [|[a b] l IH]; intros s OK F; cbn; auto.
  inversion F as [|? ? [? ?] ?]; subst. apply IH; auto. apply put_ok; auto.
Qed.
Lemma puts_load_notin l s x : x ∉ map fst l -> load_u8 (puts s l) x = load_u8 s x.
Proof.
  revert s; induction l as [|[a b] l IH]; intros s Hx; cbn in *; auto.
  apply not_elem_of_cons in Hx as [H1 H2]. rewrite IH by auto. rewrite load_put.
  destruct (Z.eqb_spec x a); congruence.
Qed.

(** ** Arithmetic *)
Lemma wrap32_word z : wrap32 z = word z.
Proof. reflexivity. Qed.
Lemma as_i32_sg z : as_i32 z = sg z.
Proof. reflexivity. Qed.
Lemma word_id z : u32 z -> word z = z.
Proof. intros H. apply Z.mod_small. exact H. Qed.
Lemma word_u32 z : u32 (word z).
Proof. apply wrap32_u32. Qed.
Lemma word_add_l a b : word (word a + b) = word (a + b).
Proof. unfold word, M32. rewrite Zplus_mod_idemp_l. reflexivity. Qed.
Lemma word_add_r a b : word (a + word b) = word (a + b).
Proof. unfold word, M32. rewrite Zplus_mod_idemp_r. reflexivity. Qed.
Lemma wadd_0_r a : u32 a -> wadd a 0 = a.
Proof. intros. unfold wadd. rewrite Z.add_0_r. apply word_id; auto. Qed.
Lemma wadd_0_l a : u32 a -> wadd 0 a = a.
Proof. intros. unfold wadd. rewrite Z.add_0_l. apply word_id; auto. Qed.
Lemma land31 y : Z.land y 31 = y mod 32.
Proof. change 31 with (Z.ones 5). rewrite Z.land_ones by lia. reflexivity. Qed.
Lemma mod32 y : 0 <= y mod 32 < 32.
Proof. lia. Qed.

Lemma land_u32 a b : u32 a -> u32 b -> u32 (Z.land a b).
Proof.
  unfold u32. intros Ha Hb. split; [apply Z.land_nonneg; lia|].
  change 4294967296 with (2^32) in *. rewrite <- (Z.mod_small a (2^32)) by lia.
  rewrite <- Z.land_ones by lia. rewrite <- Z.land_assoc, (Z.land_comm _ b), Z.land_assoc, Z.land_ones by lia. lia.
Qed.
Lemma bitop_u32 (f : Z -> Z -> Z) (g : bool -> bool -> bool) :
  (forall a b i, 0 <= i -> Z.testbit (f a b) i = g (Z.testbit a i) (Z.testbit b i)) -> g false false = false ->
  (forall a b, 0 <= a -> 0 <= b -> 0 <= f a b) ->
  forall a b, u32 a -> u32 b -> u32 (f a b).
Proof.
  intros Hf Hg Hp a b Ha Hb. unfold u32 in *. split; [apply Hp; lia|].
  change 4294967296 with (2 ^ 32) in *.
  assert (E : f a b = f a b mod 2 ^ 32).
  { apply Z.bits_inj'. intros n Hn. destruct (Z.lt_ge_cases n 32).
    - rewrite Z.mod_pow2_bits_low by lia. reflexivity.
    - rewrite Z.mod_pow2_bits_high by lia. rewrite Hf by lia.
      rewrite <- (Z.mod_small a (2^32)) by lia. rewrite <- (Z.mod_small b (2^32)) by lia.
      rewrite !Z.mod_pow2_bits_high by lia. exact Hg. }
  rewrite E. apply Z.mod_pos_bound. lia.
Qed.
Lemma lxor_u32 a b : u32 a -> u32 b -> u32 (Z.lxor a b).
Proof. apply (bitop_u32 Z.lxor xorb); auto. - intros; apply Z.lxor_spec. - intros; apply Z.lxor_nonneg; lia. Qed.
Lemma lor_u32 a b : u32 a -> u32 b -> u32 (Z.lor a b).
Proof. apply (bitop_u32 Z.lor orb); auto. - intros; apply Z.lor_spec. - intros; apply Z.lor_nonneg; lia. Qed.
Lemma shiftr_u32 a n : u32 a -> 0 <= n -> u32 (Z.shiftr a n).
Proof.
  unfold u32; intros. rewrite Z.shiftr_div_pow2 by lia.
  assert (0 < 2 ^ n) by (apply Z.pow_pos_nonneg; lia).
  split; [apply Z.div_pos; lia|]. apply Z.div_lt_upper_bound; nia.
Qed.
Lemma b2z_u32 b : u32 (b2z b).
Proof. destruct b; unfold u32; cbn; lia. Qed.

(** The function the VM applies for each register operation *)
Definition alu_fun (o : op) : option (Z -> Z -> Z) :=
  match o with
  | ADD => Some wadd
  | SLL => Some (fun x y => wrap32 (Z.shiftl x (Z.land y 31)))
  | SRL => Some (fun x y => Z.shiftr x (Z.land y 31))
  | SRA => Some (fun x y => wrap32 (Z.shiftr (as_i32 x) (Z.land y 31)))
  | SLT => Some (fun x y => b2z (as_i32 x <? as_i32 y))
  | SLTU => Some (fun x y => b2z (x <? y))
  | AND => Some Z.land | OR => Some Z.lor | XOR => Some Z.lxor
  | SUB => Some wsub
  | MUL => Some wmul | MULH => Some mulh | MULHU => Some mulhu | MULHSU => Some mulhsu
  | DIV => Some div | DIVU => Some divu | REM => Some rem | REMU => Some remu
  | _ => None
  end.
Lemma alu_fun_u32 o f a b : alu_fun o = Some f -> u32 a -> u32 b -> u32 (f a b).
Proof.
  intros E Ha Hb.
  destruct o; cbn in E; try discriminate; injection E as <-; cbv beta;
    try solve [apply wrap32_u32 | apply b2z_u32 | apply land_u32; auto | apply lor_u32; auto | apply lxor_u32; auto
      | apply shiftr_u32; [auto|rewrite land31; lia]].
  - unfold div. destruct (_ =? _); [unfold u32; lia|apply wrap32_u32].
  - unfold divu. destruct (Z.eqb_spec b 0); [unfold u32; lia|]. unfold u32 in *.
    split; [apply Z.div_pos; lia|apply Z.div_lt_upper_bound; nia].
  - unfold rem. destruct (_ =? _); [apply wrap32_u32|]. destruct (_ && _); [unfold u32; lia|apply wrap32_u32].
  - unfold remu. destruct (Z.eqb_spec b 0); [auto|]. unfold u32 in *.
    pose proof (Z.mod_pos_bound a b). lia.
Qed.

Lemma sg_zero b : u32 b -> (sg b =? 0) = (b =? 0).
Proof. unfold u32, sg, M32. intros. change (2^31) with 2147483648. change (2^32) with 4294967296.
  destruct (Z.ltb_spec b 2147483648); apply eq_true_iff_eq; rewrite !Z.eqb_eq; lia. Qed.
Lemma word_sg b : u32 b -> word (sg b) = b.
Proof. unfold u32, sg, word, M32. intros. change (2^31) with 2147483648. change (2^32) with 4294967296.
  destruct (Z.ltb_spec b 2147483648); lia. Qed.
Lemma sg_range a : u32 a -> -2147483648 <= sg a < 2147483648.
Proof. unfold u32, sg, M32. intros. change (2^31) with 2147483648. change (2^32) with 4294967296.
  destruct (Z.ltb_spec a 2147483648); lia. Qed.

Lemma alu_sem_ok o f a b : alu_fun (op_of_alu o) = Some f -> u32 a -> u32 b -> f a b = alu_sem o a b.
Proof.
  intros E Ha Hb. destruct o; cbn in E; injection E as <-; cbv beta; cbn [alu_sem];
    rewrite ?land31, ?Z.shiftl_mul_pow2, ?Z.shiftr_div_pow2 by lia; try reflexivity.
  - unfold mulh. rewrite Z.shiftr_div_pow2 by lia. reflexivity.
  - unfold mulhsu. rewrite Z.shiftr_div_pow2 by lia. reflexivity.
  - unfold mulhu. rewrite Z.shiftr_div_pow2 by lia. reflexivity.
  - unfold div. rewrite as_i32_sg, sg_zero by auto. destruct (b =? 0); reflexivity.
  - unfold rem. change as_i32 with sg. rewrite sg_zero by auto. destruct (b =? 0).
    + apply word_sg; auto.
    + destruct (Z.eqb_spec (sg a) (-2147483648)) as [Ea|]; [|reflexivity].
      destruct (Z.eqb_spec (sg b) (-1)) as [Eb|]; [|reflexivity].
      cbn [andb]. rewrite Ea, Eb. reflexivity.
Qed.
