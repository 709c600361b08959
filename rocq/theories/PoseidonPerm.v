(** The permutation table: proofs. *)
From Verif Require Import PoseidonSpec Stark DeviceProofs.
Open Scope Z_scope.

Ltac list12 l H := do 12 (destruct l as [|? l]; [cbn in H; discriminate H|]); destruct l; [clear H|cbn in H; discriminate H].

Lemma norm_length l : length (norm l) = length l. Proof. apply map_length. Qed.
Lemma norm_canon l : Forall canon (norm l).
Proof. apply List.Forall_forall. intros x I. apply in_map_iff in I as (y & <- & _). unfold canon. apply Z.mod_pos_bound. reflexivity. Qed.
Lemma norm_id l : Forall canon l -> norm l = l.
Proof. intros F. unfold norm. induction F as [|x l C F IH]; [reflexivity|]. cbn. rewrite IH, Z.mod_small by exact C. reflexivity. Qed.
Lemma norm_nth l i : nth i (norm l) 0 = nth i l 0 mod P.
Proof. exact (map_nth (fun x => x mod P) l 0 i). Qed.
Lemma norm_eq l l' : length l = length l' -> (forall i, feq (nth i l 0) (nth i l' 0)) -> norm l = norm l'.
Proof.
  intros L F. apply (nth_ext _ _ 0 0). { rewrite !norm_length. exact L. } intros i _. rewrite !norm_nth. apply F.
Qed.
Lemma norm_inv l l' i : norm l = norm l' -> feq (nth i l 0) (nth i l' 0).
Proof. intros E. unfold feq. rewrite <- !norm_nth, E. reflexivity. Qed.
Lemma fzero_feq a b : fzero (a - b) <-> feq a b.
Proof. unfold fzero, feq. rewrite Zminus_mod. split; intros H.
  - assert (0 <= a mod P < P) by (apply Z.mod_pos_bound; reflexivity). assert (0 <= b mod P < P) by (apply Z.mod_pos_bound; reflexivity).
    apply Z.mod_divide in H; [|discriminate]. destruct H as [k H]. assert (k = 0) by nia. subst. lia.
  - rewrite H, Z.sub_diag. reflexivity.
Qed.
Lemma feq_sum {A} (f g : A -> Z) l : (forall x, In x l -> feq (f x) (g x)) -> feq (sumZ (map f l)) (sumZ (map g l)).
Proof.
  induction l as [|a l IH]; intros F; [reflexivity|]. cbn [map]. rewrite !sumZ_cons. unfold feq in *. rewrite (Z.add_mod (f a)), (Z.add_mod (g a)) by discriminate.
  rewrite (F a) by (left; reflexivity). rewrite IH; [reflexivity|]. intros x I. apply F. right. exact I.
Qed.
Lemma feq_mul_l a b c : feq b c -> feq (a * b) (a * c).
Proof. unfold feq. intros E. rewrite Z.mul_mod, E, <- Z.mul_mod by discriminate. reflexivity. Qed.
Lemma feq_pow a b n : 0 <= n -> feq a b -> feq (a ^ n) (b ^ n).
Proof.
  intros N E. revert n N. apply natlike_ind; [reflexivity|]. intros n N IH. unfold feq in *. rewrite !Z.pow_succ_r by exact N.
  rewrite Z.mul_mod, E, IH, <- Z.mul_mod by discriminate. reflexivity.
Qed.
Lemma feq_add a b c : feq a b -> feq (a + c) (b + c).
Proof. unfold feq. intros E. rewrite Z.add_mod, E, <- Z.add_mod by discriminate. reflexivity. Qed.
Lemma feq_mod a : feq (a mod P) a. Proof. unfold feq. apply Z.mod_mod. discriminate. Qed.
Lemma apply_ext m st st' : (forall i, (i < 12)%nat -> feq (nth i st 0) (nth i st' 0)) -> apply_matrix m st = apply_matrix m st'.
Proof.
  intros F. unfold apply_matrix. apply map_ext. intros i. apply feq_sum. intros j I. apply feq_mul_l, F. apply in_seq in I. lia.
Qed.
Lemma apply_canon m st : state12 (apply_matrix m st).
Proof.
  split; [unfold apply_matrix; rewrite map_length; reflexivity|]. apply List.Forall_forall. intros x I. apply in_map_iff in I as (y & <- & _).
  unfold canon. apply Z.mod_pos_bound. reflexivity.
Qed.
Lemma matmul_external_spec st : length st = 12%nat -> length (matmul_external st) = 12%nat /\ norm (matmul_external st) = apply_matrix external_matrix st.
Proof.
  intros L. list12 st L. split; [reflexivity|]. unfold norm, apply_matrix, matmul_external, external_matrix, sumZ, at_. cbn -[Z.mul Z.add Z.modulo]. repeat (apply (f_equal2 cons); [f_equal; ring|]). reflexivity.
Qed.
Lemma matmul_internal_spec K st : length st = 12%nat -> length (matmul_internal K st) = 12%nat /\ norm (matmul_internal K st) = apply_matrix (internal_matrix K) st.
Proof.
  intros L. list12 st L. split; [reflexivity|]. unfold norm, apply_matrix, matmul_internal, internal_matrix, sumZ, at_. cbn -[Z.mul Z.add Z.modulo nth].
  generalize (k_diag K). intros dg. generalize (nth 0 dg 0), (nth 1 dg 0), (nth 2 dg 0), (nth 3 dg 0), (nth 4 dg 0), (nth 5 dg 0), (nth 6 dg 0), (nth 7 dg 0), (nth 8 dg 0), (nth 9 dg 0), (nth 10 dg 0), (nth 11 dg 0).
  intros. cbn [nth]. repeat (apply (f_equal2 cons); [f_equal; ring|]). reflexivity.
Qed.
Lemma add_rc_nth K r st i : (i < length st)%nat -> nth i (add_rc K r st) 0 = nth i st 0 + nth (r + i) (k_rc K) 0.
Proof.
  intros L. unfold add_rc. pose (f := fun '(k, x) => x + at_ (k_rc K) (r + k) : Z). fold f.
  rewrite (nth_indep _ 0 (f (0%nat, 0))) by (rewrite map_length, combine_length, seq_length; lia). rewrite map_nth, combine_nth by apply seq_length.
  rewrite seq_nth by exact L. reflexivity.
Qed.
Lemma add_rc_length K r st : length (add_rc K r st) = length st.
Proof. unfold add_rc. rewrite map_length, combine_length, seq_length. lia. Qed.
Lemma sbox_nth st q i : (i < length st)%nat -> length st = length q -> nth i (sbox_cols st q) 0 = nth i st 0 * (nth i q 0 * nth i q 0).
Proof.
  unfold sbox_cols. revert q i. induction st as [|x st IH]; intros [|y q] i L E; cbn in *; try lia. destruct i as [|i]; [reflexivity|]. apply IH; lia.
Qed.
Lemma sbox_length st q : length st = length q -> length (sbox_cols st q) = length st.
Proof. intros E. unfold sbox_cols. rewrite zip_with_length. lia. Qed.
Lemma zip_sub st col : length st = length col -> Forall canon col -> all_zero (zip_with Z.sub st col) <-> norm st = col.
Proof.
  unfold all_zero. revert col. induction st as [|x st IH]; intros [|y col] E F; cbn in *; try discriminate; [split; auto; intros; apply List.Forall_nil|].
  apply Forall_cons_iff in F as [C F]. rewrite Forall_cons_iff, fzero_feq, IH by (auto; lia). unfold feq. rewrite (Z.mod_small y) by exact C. fold (norm st). split; [intros [A B]; rewrite A, B; reflexivity|intros Q; injection Q as A B; split; assumption].
Qed.
Lemma seventh x q : feq q (x ^ 3) -> feq (x * (q * q)) (x ^ 7).
Proof.
  intros E. replace (x ^ 7) with (x * (x ^ 3 * x ^ 3)) by ring. apply feq_mul_l. unfold feq in *. rewrite Z.mul_mod, E, <- Z.mul_mod by discriminate. reflexivity.
Qed.
Lemma nth_map_seq (f : nat -> Z) i : (i < 12)%nat -> nth i (map f (seq 0 12)) 0 = f i.
Proof. intros L. rewrite (nth_indep _ 0 (f 0%nat)) by (rewrite map_length, seq_length; exact L). rewrite map_nth, seq_nth by exact L. reflexivity. Qed.

(** one full round of the constraints *)
Lemma full_step K r st q : length st = 12%nat -> length q = 12%nat ->
  (forall i, (i < 12)%nat -> feq (nth i q 0) ((nth i st 0 + nth (r + i) (k_rc K) 0) ^ 3)) ->
  norm (matmul_external (sbox_cols (add_rc K r st) q)) = full_round K r st.
Proof.
  intros L Lq C. destruct (matmul_external_spec (sbox_cols (add_rc K r st) q)) as [_ ->]; [rewrite sbox_length, add_rc_length; rewrite ?add_rc_length; lia|].
  unfold full_round. apply apply_ext. intros i I. rewrite sbox_nth, add_rc_nth, nth_map_seq by (rewrite ?add_rc_length; lia). apply seventh, C, I.
Qed.
Lemma full_sound K : forall cols cubes r st, length cols = length cubes -> length st = 12%nat -> Forall state12 cols -> Forall state12 cubes ->
  (forall k i q, cubes !! k = Some q -> (i < 12)%nat -> feq (nth i q 0) ((nth i (nth k (st :: cols) []) 0 + nth (r + k + i) (k_rc K) 0) ^ 3)) ->
  all_zero (round_constraints K r st cols cubes) -> List.last cols st = fold_left (fun s j => full_round K j s) (seq r (length cols)) st.
Proof.
  induction cols as [|col cols IH]; intros [|q cubes] r st L Ls F1 F2 C Z; try discriminate; [reflexivity|].
  apply Forall_cons_iff in F1 as [Cc F1]. apply Forall_cons_iff in F2 as [Cq F2]. cbn [round_constraints] in Z. apply List.Forall_app in Z as [Z1 Z2]. destruct Cc as [Lc Cc], Cq as [Lq Cq].
  assert (Lb : length (sbox_cols (add_rc K r st) q) = 12%nat) by (rewrite sbox_length; rewrite ?add_rc_length; lia).
  apply zip_sub in Z1; [|rewrite (proj1 (matmul_external_spec _ Lb)); lia|exact Cc].
  rewrite full_step in Z1; [|exact Ls|exact Lq|]. 2:{ intros i I. specialize (C 0%nat i q eq_refl I). cbn in C. rewrite Nat.add_0_r in C. exact C. }
  cbn [length seq fold_left]. rewrite Z1. rewrite <- IH with (cubes := cubes); try assumption; [|cbn in L; lia|].
  - cbn. destruct cols; [reflexivity|]. clear. revert l. induction cols as [|c cols IH]; intros l; [reflexivity|]. cbn. specialize (IH c). cbn in IH. exact IH.
  - intros k i q' E I. specialize (C (S k) i q' E I). cbn in C. replace (S r + k + i)%nat with (r + S k + i)%nat by lia. exact C.
Qed.
Lemma last_default {A} (l : list A) d d' : l <> [] -> List.last l d = List.last l d'.
Proof. induction l as [|a l IH]; [congruence|]. intros _. destruct l; [reflexivity|]. cbn. apply IH. discriminate. Qed.
Lemma set_head_nth x st i : st <> [] -> nth i (set_head x st) 0 = if (i =? 0)%nat then x else nth i st 0.
Proof. destruct st; [congruence|]. intros _. destruct i; reflexivity. Qed.
Lemma add_head_nth x st i : st <> [] -> nth i (add_head x st) 0 = if (i =? 0)%nat then nth 0 st 0 + x else nth i st 0.
Proof. destruct st; [congruence|]. intros _. destruct i; reflexivity. Qed.
Lemma set_head_length x st : length (set_head x st) = length st. Proof. destruct st; reflexivity. Qed.
Lemma add_head_length x st : length (add_head x st) = length st. Proof. destruct st; reflexivity. Qed.
Lemma nonempty12 (st : list Z) : length st = 12%nat -> st <> []. Proof. intros L ->. discriminate. Qed.

(** one partial round of the constraints *)
Definition partial_next (K : p2consts) (c q : Z) (st : list Z) : list Z :=
  matmul_internal K (set_head (at_ (add_head c st) 0 * (q * q)) (add_head c st)).
Lemma partial_step K c q st s : length st = 12%nat -> norm st = s -> feq q ((nth 0 st 0 + c) ^ 3) ->
  length (partial_next K c q st) = 12%nat /\ norm (partial_next K c q st) = partial_round K c s.
Proof.
  intros L E C. unfold partial_next. pose proof (nonempty12 _ L) as N. destruct (matmul_internal_spec K (set_head (at_ (add_head c st) 0 * (q * q)) (add_head c st))) as [L2 ->]; [rewrite set_head_length, add_head_length; exact L|].
  split; [exact L2|]. unfold partial_round. assert (N1 : add_head c st <> []) by (apply nonempty12; rewrite add_head_length; exact L).
  apply apply_ext. intros i I. rewrite set_head_nth by exact N1. rewrite nth_map_seq by exact I. unfold at_. rewrite !add_head_nth by exact N. subst s. destruct (Nat.eqb_spec i 0) as [->|Hi].
  - cbn [Nat.eqb]. rewrite norm_nth. pose proof (seventh (nth 0 st 0 + c) q C) as S7. unfold feq in *. rewrite S7. apply feq_pow; [lia|]. apply feq_add. symmetry. apply feq_mod.
  - rewrite norm_nth. symmetry. apply feq_mod.
Qed.
Lemma partial_sound K : forall mid st state0 cubes final s, length st = 12%nat -> norm st = s -> length state0 = length mid -> length cubes = length mid -> Forall canon state0 -> state12 final ->
  (forall k q c, cubes !! k = Some q -> mid !! k = Some c -> feq q ((nth k (nth 0 st 0 :: state0) 0 + c) ^ 3)) ->
  all_zero (partial_constraints K mid st state0 cubes final) -> final = fold_left (fun s c => partial_round K c s) mid s.
Proof.
  induction mid as [|c mid IH]; intros st state0 cubes final s L E L1 L2 F [Lf Cf] C Z.
  - destruct state0; [|discriminate]. cbn in Z. apply zip_sub in Z; [|lia|exact Cf]. rewrite <- Z. exact E.
  - destruct state0 as [|s0 state0]; [discriminate|]. destruct cubes as [|q cubes]; [discriminate|]. apply Forall_cons_iff in F as [C0 F]. cbn [partial_constraints] in Z. fold (partial_next K c q st) in Z.
    apply Forall_cons_iff in Z as [Z1 Z2]. destruct (partial_step K c q st s L E) as [L3 E3]; [exact (C 0%nat q c eq_refl eq_refl)|].
    pose proof (nonempty12 _ L3) as N3. cbn [fold_left]. apply (IH (set_head s0 (partial_next K c q st)) state0 cubes final); auto.
    + rewrite set_head_length. exact L3.
    + rewrite <- E3. apply norm_eq; [apply set_head_length|]. intros i. rewrite set_head_nth by exact N3. destruct (Nat.eqb_spec i 0) as [->|]; [|reflexivity]. symmetry. apply fzero_feq, Z1.
    + split; auto.
    + intros k q' c' E1 E2. rewrite set_head_nth by exact N3. cbn [Nat.eqb]. apply (C (S k) q' c' E1 E2).
Qed.

Lemma full_round_norm K r st : full_round K r st = full_round K r (norm st).
Proof.
  unfold full_round. apply apply_ext. intros i I. rewrite (nth_map_seq (fun i => (nth i st 0 + nth (r + i) (k_rc K) 0) ^ 7)), (nth_map_seq (fun i => (nth i (norm st) 0 + nth (r + i) (k_rc K) 0) ^ 7)) by exact I.
  apply feq_pow; [lia|]. apply feq_add. rewrite norm_nth. symmetry. apply feq_mod.
Qed.
Lemma fold_first K r h x y : full_round K r x = full_round K r y ->
  fold_left (fun s j => full_round K j s) (seq r (S h)) x = fold_left (fun s j => full_round K j s) (seq r (S h)) y.
Proof. generalize (fun j s => full_round K j s). intros F E. cbn [seq fold_left]. rewrite E. reflexivity. Qed.
(** Soundness: with the cubes the constraints compute the permutation. *)
Lemma perm_sound K r r' : (0 < k_half K)%nat -> perm_canon K r -> cubes_ok K r -> all_zero (a_always (perm_air K) r r') ->
  last_state_of (q_second r) = poseidon2_permutation K (q_input r).
Proof.
  intros H0 PC CK Z. cbn [a_always perm_air] in Z. apply Forall_cons_iff in Z as [_ Z]. apply List.Forall_app in Z as [Z1 Z]. apply List.Forall_app in Z as [Z2 Z3].
  destruct PC as [_ [Li Ci] [Lm Cm] [L1 F1] [L2 F2] [L3 F3] [L4 F4] [L5 F5] [L6 F6]]. destruct CK as [K1 K2 K3].
  destruct (matmul_external_spec (q_input r) Li) as [Le Ee]. set (x0 := matmul_external (q_input r)) in *.
  assert (G1 : List.last (q_first r) x0 = fold_left (fun s j => full_round K j s) (seq 0 (length (q_first r))) x0).
  { abstract (apply (full_sound K _ (q_cube1 r)); auto; [congruence|]; intros k i q E I; specialize (K1 k i q E I); unfold feq in *; rewrite K1; change (0 + k + i)%nat with (k + i)%nat; destruct k as [|k]; cbn [nth]; [apply feq_pow; [lia|]; apply feq_add; rewrite <- Ee, norm_nth; apply feq_mod|reflexivity]). }
  assert (N1 : q_first r <> []) by (intros Q; rewrite Q in L1; cbn in L1; lia). assert (N2 : q_second r <> []) by (intros Q; rewrite Q in L2; cbn in L2; lia).
  assert (S1 : state12 (last_state_of (q_first r))).
  { unfold last_state_of. destruct (@exists_last _ (q_first r) N1) as (l & a & Q). rewrite Q, last_last. rewrite Q in F1. apply List.Forall_app in F1 as [_ F1]. apply Forall_cons_iff in F1. tauto. }
  assert (G1' : last_state_of (q_first r) = fold_left (fun s j => full_round K j s) (seq 0 (k_half K)) (apply_matrix external_matrix (q_input r))).
  { unfold last_state_of. rewrite (last_default _ [] x0) by exact N1. rewrite G1, L1. destruct (k_half K) as [|h]; [lia|]. apply fold_first. rewrite (full_round_norm K 0 x0), Ee. reflexivity. }
  destruct S1 as [LS CS]. assert (G2 : q_mid r = fold_left (fun s c => partial_round K c s) (k_mid K) (last_state_of (q_first r))).
  { abstract (eapply (partial_sound K (k_mid K) (last_state_of (q_first r)) (q_state0 r) (q_cubep r)); auto; [apply norm_id, CS|split; auto]). }
  assert (G3 : List.last (q_second r) (q_mid r) = fold_left (fun s j => full_round K j s) (seq (k_half K) (length (q_second r))) (q_mid r)).
  { abstract (apply (full_sound K _ (q_cube2 r)); auto; congruence). }
  unfold last_state_of. rewrite (last_default _ [] (q_mid r)) by exact N2. rewrite G3, L2, G2, G1'. unfold poseidon2_permutation. reflexivity.
Qed.

(** Generated rows *)
Lemma nth_map_lt (f : Z -> Z) l i : (i < length l)%nat -> nth i (map f l) 0 = f (nth i l 0).
Proof. intros L. rewrite (nth_indep _ 0 (f 0)) by (rewrite map_length; exact L). apply map_nth. Qed.
Lemma gen_full_props K : forall n r st, length st = 12%nat ->
  let g := gen_full K n r st in
  length g = n /\ Forall state12 (map fst g) /\ Forall state12 (map snd g) /\
  (forall k i q, map snd g !! k = Some q -> (i < 12)%nat -> feq (nth i q 0) ((nth i (nth k (st :: map fst g) []) 0 + nth (r + k + i) (k_rc K) 0) ^ 3)) /\
  all_zero (round_constraints K r st (map fst g) (map snd g)).
Proof.
  induction n as [|n IH]; intros r st L; cbn [gen_full map].
  - split; [reflexivity|]. split; [apply List.Forall_nil|]. split; [apply List.Forall_nil|]. split; [intros k i q Q; destruct k; discriminate|apply List.Forall_nil].
  - set (x := norm (add_rc K r st)). set (st' := norm (matmul_external (map (fun v => v ^ 7) x))). set (q0 := map (fun v => v ^ 3 mod P) x).
    assert (Lx : length x = 12%nat) by (unfold x; rewrite norm_length, add_rc_length; exact L).
    assert (S' : state12 st').
    { split; [|apply norm_canon]. unfold st'. rewrite norm_length. apply matmul_external_spec. rewrite map_length. exact Lx. }
    assert (Sq : state12 q0).
    { split; [unfold q0; rewrite map_length; exact Lx|]. apply List.Forall_forall. intros y I. apply in_map_iff in I as (z & <- & _). unfold canon. apply Z.mod_pos_bound. reflexivity. }
    assert (Hq : forall i, (i < 12)%nat -> feq (nth i q0 0) ((nth i st 0 + nth (r + i) (k_rc K) 0) ^ 3)).
    { intros i I. unfold q0. rewrite nth_map_lt by lia. unfold x. rewrite norm_nth, add_rc_nth by lia.
      unfold feq. rewrite Z.mod_mod by discriminate. apply feq_pow; [lia|]. apply feq_mod. }
    destruct (IH (S r) st' (proj1 S')) as (G1 & G2 & G3 & G4 & G5). cbn [fst snd length]. split; [rewrite G1; reflexivity|]. split; [apply List.Forall_cons; auto|]. split; [apply List.Forall_cons; auto|]. split.
    + intros [|k] i q E I.
      * cbn in E. injection E as <-. cbn [nth]. rewrite Nat.add_0_r. apply Hq, I.
      * cbn in E. specialize (G4 k i q E I). replace (r + S k + i)%nat with (S r + k + i)%nat by lia. exact G4.
    + cbn [round_constraints]. apply List.Forall_app. split; [|exact G5].
      assert (Lb : length (sbox_cols (add_rc K r st) q0) = 12%nat) by (rewrite sbox_length; rewrite ?add_rc_length; [lia|destruct Sq; lia]).
      apply zip_sub; [rewrite (proj1 (matmul_external_spec _ Lb)); symmetry; apply S'|apply S'|].
      unfold st'. rewrite (proj2 (matmul_external_spec _ Lb)). rewrite (proj2 (matmul_external_spec (map (fun v => v ^ 7) x) ltac:(rewrite map_length; exact Lx))).
      apply apply_ext. intros i I. rewrite sbox_nth, add_rc_nth by (rewrite ?add_rc_length; destruct Sq; lia).
      rewrite nth_map_lt by lia. unfold x. rewrite norm_nth, add_rc_nth by lia.
      unfold feq. rewrite (seventh _ _ (Hq i I)). apply feq_pow; [lia|]. symmetry. apply feq_mod.
Qed.
Lemma gen_partial_props K : forall mid st, state12 st ->
  let '(l, fin) := gen_partial K mid st in
  length l = length mid /\ Forall canon (map fst l) /\ Forall canon (map snd l) /\ state12 fin /\
  (forall k q c, map snd l !! k = Some q -> mid !! k = Some c -> feq q ((nth k (nth 0 st 0 :: map fst l) 0 + c) ^ 3)).
Proof.
  induction mid as [|c mid IH]; intros st St; cbn [gen_partial].
  - split; [reflexivity|]. split; [apply List.Forall_nil|]. split; [apply List.Forall_nil|]. split; [exact St|]. intros k q c E. destruct k; discriminate.
  - set (x := (at_ st 0 + c) mod P). set (st' := norm (matmul_internal K (set_head (x ^ 7) st))).
    assert (S' : state12 st').
    { split; [|apply norm_canon]. unfold st'. rewrite norm_length. apply matmul_internal_spec. rewrite set_head_length. apply St. }
    specialize (IH st' S'). destruct (gen_partial K mid st') as [l fin]. destruct IH as (G1 & G2 & G3 & G4 & G5). cbn [map fst snd length].
    split; [lia|]. split. { apply List.Forall_cons; [|exact G2]. unfold st', at_. rewrite norm_nth. unfold canon. apply Z.mod_pos_bound. reflexivity. }
    split. { apply List.Forall_cons; [|exact G3]. unfold canon. apply Z.mod_pos_bound. reflexivity. }
    split; [exact G4|]. intros [|k] q c' E1 E2.
    + cbn in E1, E2. injection E1 as <-. injection E2 as <-. cbn [nth]. unfold feq. rewrite Z.mod_mod by discriminate. unfold x. apply feq_pow; [lia|]. apply feq_mod.
    + cbn in E1, E2. exact (G5 k q c' E1 E2).
Qed.
Lemma gen_partial_sat K : forall mid st s, state12 s -> length st = 12%nat -> norm st = s -> nth 0 st 0 = nth 0 s 0 ->
  let '(l, fin) := gen_partial K mid s in all_zero (partial_constraints K mid st (map fst l) (map snd l) fin).
Proof.
  induction mid as [|c mid IH]; intros st s Ss L E H0; cbn [gen_partial].
  - cbn. apply zip_sub; [destruct Ss; lia|apply Ss|exact E].
  - pose proof (gen_partial_props K (c :: mid) s Ss) as G. cbn [gen_partial] in G.
    set (x := (at_ s 0 + c) mod P) in *. set (s' := norm (matmul_internal K (set_head (x ^ 7) s))) in *.
    assert (S' : state12 s').
    { split; [|apply norm_canon]. unfold s'. rewrite norm_length. apply matmul_internal_spec. rewrite set_head_length. apply Ss. }
    pose proof (IH (set_head (at_ s' 0) (partial_next K c (x ^ 3 mod P) st)) s' S') as IH'.
    destruct (gen_partial K mid s') as [l fin]. destruct G as (_ & _ & _ & _ & G). specialize (G 0%nat _ c eq_refl eq_refl). cbn [nth] in G.
    cbn [map fst snd partial_constraints]. fold (partial_next K c (x ^ 3 mod P) st).
    destruct (partial_step K c (x ^ 3 mod P) st s L E) as [L3 E3]; [rewrite H0; exact G|].
    assert (Es : s' = partial_round K c s).
    { unfold s'. rewrite (proj2 (matmul_internal_spec K _ ltac:(rewrite set_head_length; apply Ss))). unfold partial_round. apply apply_ext. intros i I.
      rewrite set_head_nth by (apply nonempty12, Ss). rewrite nth_map_seq by exact I. destruct (i =? 0)%nat; [|reflexivity]. unfold x. apply feq_pow; [lia|]. apply feq_mod. }
    assert (N3 : partial_next K c (x ^ 3 mod P) st <> []) by (apply nonempty12, L3).
    assert (H3 : feq (at_ (partial_next K c (x ^ 3 mod P) st) 0) (at_ s' 0)).
    { unfold at_. rewrite Es, <- E3, norm_nth. symmetry. apply feq_mod. }
    apply List.Forall_cons; [apply fzero_feq, H3|]. apply IH'.
    + rewrite set_head_length. exact L3.
    + rewrite Es, <- E3. apply norm_eq; [apply set_head_length|]. intros i. rewrite set_head_nth by exact N3. destruct (Nat.eqb_spec i 0) as [->|]; [|reflexivity]. symmetry. unfold at_ in H3. rewrite E3, <- Es. exact H3.
    + rewrite set_head_nth by exact N3. reflexivity.
Qed.
Lemma last_Forall {A} (Q : A -> Prop) l d : l <> [] -> Forall Q l -> Q (List.last l d).
Proof. intros N F. destruct (@exists_last _ l N) as (l0 & a & ->). rewrite last_last. apply List.Forall_app in F as [_ F]. apply Forall_cons_iff in F. tauto. Qed.
Lemma gen_perm_ok K pre exe : (0 < k_half K)%nat -> state12 pre ->
  perm_canon K (gen_perm K pre exe) /\ cubes_ok K (gen_perm K pre exe) /\ (forall r', all_zero (a_always (perm_air K) (gen_perm K pre exe) r')).
Proof.
  intros H0 Sp. unfold gen_perm. set (x0 := norm (matmul_external pre)). destruct (matmul_external_spec pre (proj1 Sp)) as [Le Ee]. fold x0 in Ee.
  assert (L0 : length x0 = 12%nat) by (unfold x0; rewrite norm_length; exact Le).
  destruct (gen_full_props K (k_half K) 0 x0 L0) as (A1 & A2 & A3 & A4 & A5). set (f1 := gen_full K (k_half K) 0 x0) in *.
  assert (N1 : map fst f1 <> []) by (intros Q; apply (f_equal length) in Q; rewrite map_length, A1 in Q; cbn in Q; lia).
  assert (S1 : state12 (last_state_of (map fst f1))) by (unfold last_state_of; apply last_Forall; assumption).
  pose proof (gen_partial_props K (k_mid K) _ S1) as B. pose proof (gen_partial_sat K (k_mid K) _ _ S1 (proj1 S1) (norm_id _ (proj2 S1)) eq_refl) as B'.
  destruct (gen_partial K (k_mid K) (last_state_of (map fst f1))) as [ps mid]. destruct B as (B1 & B2 & B3 & B4 & B5).
  destruct (gen_full_props K (k_half K) (k_half K) mid (proj1 B4)) as (C1 & C2 & C3 & C4 & C5). set (f2 := gen_full K (k_half K) (k_half K) mid) in *.
  split; [|split].
  - constructor; cbn [q_exe q_input q_first q_state0 q_mid q_second q_cube1 q_cube2 q_cubep]; rewrite ?map_length; auto. unfold canon. destruct exe; cbn; split; try lia; reflexivity.
  - constructor; cbn [q_exe q_input q_first q_state0 q_mid q_second q_cube1 q_cube2 q_cubep].
    + intros k i q E I. rewrite <- Ee. exact (A4 k i q E I).
    + exact B5.
    + exact C4.
  - intros r'. cbn [a_always perm_air q_exe q_input q_first q_state0 q_mid q_second q_cube1 q_cube2 q_cubep]. apply List.Forall_cons; [apply bin_bit; destruct exe; cbn; unfold bit; auto|]. apply List.Forall_app. split; [|apply List.Forall_app; split; assumption].
    clear - A5 H0 A1 L0 Le. revert A5. unfold f1. destruct (k_half K) as [|h]; [lia|]. cbn [gen_full map fst snd round_constraints]. intros A5.
    apply List.Forall_app in A5 as [Z1 Z2]. apply List.Forall_app. split; [|exact Z2]. revert Z1. unfold all_zero. clear -L0 Le.
    set (q := map (fun v => v ^ 3 mod P) (norm (add_rc K 0 x0))). set (col := norm (matmul_external (map (fun v => v ^ 7) (norm (add_rc K 0 x0))))).
    assert (Lq : length q = 12%nat) by (unfold q; rewrite map_length, norm_length, add_rc_length; exact L0).
    assert (Lc : length col = 12%nat) by (unfold col; rewrite norm_length; apply matmul_external_spec; rewrite map_length, norm_length, add_rc_length; exact L0).
    assert (Cc : Forall canon col) by apply norm_canon.
    assert (L1 : length (sbox_cols (add_rc K 0 x0) q) = 12%nat) by (rewrite sbox_length; rewrite ?add_rc_length; lia).
    assert (L2 : length (sbox_cols (add_rc K 0 (matmul_external pre)) q) = 12%nat) by (rewrite sbox_length; rewrite ?add_rc_length; lia).
    intros Z. apply (zip_sub (matmul_external (sbox_cols (add_rc K 0 x0) q)) col) in Z; [|rewrite (proj1 (matmul_external_spec _ L1)); lia|exact Cc].
    apply (zip_sub _ col); [rewrite (proj1 (matmul_external_spec _ L2)); lia|exact Cc|]. rewrite <- Z.
    rewrite (proj2 (matmul_external_spec _ L1)), (proj2 (matmul_external_spec _ L2)). apply apply_ext. intros i I.
    rewrite !sbox_nth, !add_rc_nth by (rewrite ?add_rc_length; lia). rewrite !(Z.mul_comm _ (nth i q 0 * nth i q 0)). apply feq_mul_l, feq_add. unfold x0. rewrite norm_nth. symmetry. apply feq_mod.
Qed.
Lemma gen_perm_output K pre exe : (0 < k_half K)%nat -> state12 pre -> last_state_of (q_second (gen_perm K pre exe)) = poseidon2_permutation K pre.
Proof.
  intros H0 Sp. destruct (gen_perm_ok K pre exe H0 Sp) as (A & B & C). rewrite (perm_sound K _ (gen_perm K pre exe) H0 A B (C _)). f_equal.
  unfold gen_perm. destruct (gen_partial _ _ _). reflexivity.
Qed.
Lemma gen_perm_input K pre exe : q_input (gen_perm K pre exe) = pre /\ q_exe (gen_perm K pre exe) = b2z exe.
Proof. unfold gen_perm. destruct (gen_partial _ _ _). split; reflexivity. Qed.
Lemma fold_state12 {A} (f : list Z -> A -> list Z) l st : (forall s x, state12 (f s x)) -> state12 st -> state12 (fold_left f l st).
Proof. intros F. revert st. induction l as [|a l IH]; intros st S; [exact S|]. cbn. apply IH, F. Qed.
Lemma permutation_state12 K pre : state12 (poseidon2_permutation K pre).
Proof.
  unfold poseidon2_permutation. apply fold_state12; [intros; apply apply_canon|]. apply fold_state12; [intros; apply apply_canon|]. apply fold_state12; intros; apply apply_canon.
Qed.
