From Verif Require Export LogupSystem LogupProps.
Open Scope Z_scope.
#[local] Opaque finv is_running inst_data.

Lemma concat_flat {A B} (f : A -> list B) (l : list A) : List.concat (map f l) = flat_map f l.
Proof. symmetry. apply flat_map_concat_map. Qed.
Lemma ctl_ok_congr a a' b b' : (forall v, mult_of v a = mult_of v a') -> (forall v, mult_of v b = mult_of v b') -> ctl_ok a b <-> ctl_ok a' b'.
Proof. intros A B. unfold ctl_ok. split; intros H v; specialize (H v); [rewrite <- A, <- B|rewrite A, B]; exact H. Qed.

(** by rows or by columns *)
Lemma mult_cons_any v x (e : entries) : mult_of v (x :: e) = mult_of v [x] + mult_of v e.
Proof. change (x :: e) with ([x] ++ e). apply mult_app. Qed.
Lemma mult_transpose {A} v (g : nat -> A -> list Z * Z) (ks : list nat) (t : list A) :
  mult_of v (List.concat (map (fun k => map (g k) t) ks)) = mult_of v (flat_map (fun r => map (fun k => g k r) ks) t).
Proof.
  induction t as [|r t IH].
  - cbn [map flat_map]. induction ks as [|k ks IHk]; [reflexivity|]. exact IHk.
  - cbn [flat_map]. rewrite mult_app, <- IH. clear IH. induction ks as [|k ks IHk]; [reflexivity|]. cbn [map List.concat app] in IHk |- *.
    rewrite (mult_cons_any v (g k r) (map (g k) t ++ _)), mult_app, IHk, (mult_cons_any v (g k r) (map (fun k => g k r) ks)), mult_app. ring.
Qed.
Lemma mult_cpu_rc v t : mult_of v (List.concat (cpu_rc_tables t)) = mult_of v (cpu_rc_looking t).
Proof.
  unfold cpu_rc_tables. rewrite (mult_transpose v (fun k r => let '(x, f) := nth k (rangecheck_looking r) (0, 0) in ([x], f))). reflexivity.
Qed.

Lemma system_lookups_hold T : Forall (fun '(a, b) => ctl_ok (List.concat a) (List.concat b)) (system_lookups T) <-> lookups_hold T.
Proof.
  assert (RC : forall b, ctl_ok (List.concat (mem_rc_tables (t_mem T) ++ cpu_rc_tables (t_cpu T) ++ [add_rc_looking (t_add T)] ++ [reg_rc_looking (t_reg T)])) b <->
                         ctl_ok (mem_rc_looking (t_mem T) ++ cpu_rc_looking (t_cpu T) ++ add_rc_looking (t_add T) ++ reg_rc_looking (t_reg T)) b).
  { intros b. apply ctl_ok_congr; [|reflexivity]. intros v. rewrite !List.concat_app, !mult_app, mult_cpu_rc. cbn [List.concat]. rewrite !app_nil_r.
    unfold mem_rc_tables. cbn [List.concat]. rewrite app_nil_r. reflexivity. }
  assert (MEM : List.concat ([cpu_byte_looking (t_cpu T)] ++ map (fun o => sd_mem_looking (t_tape T o)) tape_order ++ word_limb_tables 4 (t_full T)
       ++ word_limb_tables 2 (t_half T) ++ sp_mem_tables (t_sponge T) ++ ob_mem_tables (t_ob T)) =
     cpu_byte_looking (t_cpu T) ++ all_sd_mem_looking (t_tape T) ++ word_limb_looking 4 (t_full T) ++ word_limb_looking 2 (t_half T) ++ sp_mem_looking (t_sponge T) ++ ob_mem_looking (t_ob T)).
  { rewrite !List.concat_app. unfold word_limb_tables, sp_mem_tables, ob_mem_tables. rewrite !concat_flat. cbn [List.concat]. rewrite app_nil_r. reflexivity. }
  assert (U8 : List.concat (rc_u8_tables (t_rc T) ++ [mem_u8_looking (t_mem T)]) = rc_u8_looking (t_rc T) ++ mem_u8_looking (t_mem T)).
  { rewrite !List.concat_app. unfold rc_u8_tables. rewrite !concat_flat. cbn [List.concat]. rewrite app_nil_r. reflexivity. }
  assert (REG : List.concat (cpu_reg_tables (t_cpu T) ++ add_reg_tables (t_add T) ++ blt_reg_tables (t_blt T)
       ++ map (fun o => sd_reg_looking (t_tape T o)) [StorePrivate; StorePublic; StoreCallTape; StoreEventsCommitmentTape; StoreCastListCommitmentTape; StoreSelfProgIdTape]
       ++ sp_reg_tables (t_sponge T) ++ [reginit_looking (t_reginit T)]) =
     cpu_reg_looking (t_cpu T) ++ add_reg_looking (t_add T) ++ blt_reg_looking (t_blt T) ++ all_sd_reg_looking (t_tape T) ++ sp_reg_looking (t_sponge T) ++ reginit_looking (t_reginit T)).
  { rewrite !List.concat_app. change (List.concat (map (fun o => sd_reg_looking (t_tape T o)) [StorePrivate; StorePublic; StoreCallTape; StoreEventsCommitmentTape; StoreCastListCommitmentTape; StoreSelfProgIdTape])) with (all_sd_reg_looking (t_tape T)). unfold cpu_reg_tables, add_reg_tables, blt_reg_tables, sp_reg_tables. cbn [List.concat]. rewrite !app_nil_r. reflexivity. }
  assert (SD : List.concat (map (fun '(k, o) => sd_cpu_looking k (t_tape T o)) (List.combine (seq 0 7) tape_order)) = all_sd_cpu_looking (t_tape T)).
  { reflexivity. }
  unfold system_lookups. rewrite !List.Forall_cons_iff. cbn beta iota. rewrite RC, MEM, U8, REG, SD. clear RC MEM U8 REG SD. cbn [List.concat]. rewrite !app_nil_r.
  split.
  - intros H. decompose [and] H. clear H. constructor; assumption.
  - intros []. repeat split; try assumption. constructor.
Qed.
Lemma system_publics_hold T events casts : Forall (fun '(e, vs) => ctl_ok e (as_entries vs)) (system_publics T events casts) <->
  ctl_ok (tc_event_public (t_tc T)) (public_values events) /\ ctl_ok (tc_cast_public (t_tc T)) (public_values casts).
Proof.
  unfold system_publics, as_entries. rewrite !List.Forall_cons_iff. cbn beta iota. rewrite !map_map. unfold public_values.
  split; [intros (A & B & _)|intros (A & B)]; repeat split; try assumption. constructor.
Qed.

(** ** Columns *)
Lemma width_map {A} (n : nat) (g : A -> list Z) (f : A -> Z) (t : list A) : (forall r, In r t -> length (g r) = n) -> Forall (fun '(u, _) => length u = n) (map (fun r => (g r, f r)) t).
Proof. intros H. apply List.Forall_forall. intros [u m] I. apply in_map_iff in I as (r & E & I). injection E as <- <-. apply H, I. Qed.
Definition widths : list nat := [1; 3; 2; 2; 2; 5; 4; 1; 5; 5; 4; 4; 1; 24; 6; 4; 2; 2]%nat.
Lemma system_widths T : tables_shaped T -> Forall2 (fun w '(a, b) => all_width w (a ++ b)) widths (system_lookups T).
Proof.
  intros [S1 S2 S3]. rewrite List.Forall_forall in S1, S2, S3.
  assert (S5 : forall r, In r (t_sponge T) -> length (take 4 (s_post r)) = 4%nat).
  { intros r I. rewrite take_length. destruct (S2 r I) as [_ ->]. reflexivity. }
  assert (one : forall (A : Type) (n : nat) (f : A -> list Z * Z) (t : list A), (forall r, In r t -> length (fst (f r)) = n) -> Forall (fun '(u, _) => length u = n) (map f t)).
  { intros A n f t H. apply List.Forall_forall. intros [u m] I. apply in_map_iff in I as (r & E & I). rewrite <- (H r I), E. reflexivity. }
  assert (many : forall (A : Type) (n : nat) (f : A -> entries) (l : list A), (forall a, Forall (fun '(u, _) => length u = n) (f a)) -> Forall (fun e : entries => Forall (fun '(u, _) => length u = n) e) (map f l)).
  { intros A n f l H. apply List.Forall_forall. intros e I. apply in_map_iff in I as (r & <- & I). apply H. }
  unfold widths, system_lookups. repeat constructor; unfold all_width; rewrite ?Forall_app; repeat split.
  all: repeat (apply List.Forall_cons; [|]); try apply List.Forall_nil.
  all: try (apply many; intros a; try destruct a); try (apply one; intros r I; try destruct r; reflexivity).
  all: try (apply one; intros r I; cbn [fst]; auto).
  all: rewrite ?app_length.
  - destruct (S2 r I) as [-> ->]. reflexivity.
  - cbn [length]. rewrite (S3 r I). reflexivity.
  - cbn [length]. rewrite (S5 r I). reflexivity.
Qed.

Lemma at_most_weaken n n' k (Q Q' : challenge -> Prop) : at_most n k Q -> n <= n' -> (forall c, Q' c -> Q c) -> at_most n' k Q'.
Proof.
  intros H L I l N F. specialize (H l N). etransitivity; [apply H|exact L]. revert F. apply List.Forall_impl. intros cs [E G]. split; [exact E|].
  revert G. apply List.Forall_impl. intros c [A B]. auto.
Qed.
Lemma bound_le R r w k : 0 <= r <= R -> (w <= 24)%nat -> (r * (Z.of_nat w + 2) * P) ^ Z.of_nat k <= (R * 26 * P) ^ Z.of_nat k.
Proof. intros Hr Hw. pose proof P_nonneg as HP. apply Z.pow_le_mono_l. split; [nia|]. apply Z.mul_le_mono_nonneg_r; [exact HP|]. nia. Qed.
#[global] Instance ctl_ok_dec a b : Decision (ctl_ok a b).
Proof. destruct (ctl_check a b) eqn:E; [left; apply ctl_check_ok, E|right]. intros H. apply ctl_check_ok in H. congruence. Defined.
Lemma system_width T a b : tables_shaped T -> In (a, b) (system_lookups T) -> exists w, (w <= 24)%nat /\ all_width w (a ++ b).
Proof.
  intros S I. pose proof (system_widths T S) as F. assert (B : Forall (fun w => (w <= 24)%nat) widths) by (unfold widths; repeat constructor; lia).
  revert F B I. generalize widths (system_lookups T). intros ws ls F. induction F as [|w [a' b'] ws ls H _ IH]; intros B I; [destruct I|].
  inversion B; subst. destruct I as [E|I]; [injection E as -> ->; eauto|auto].
Qed.
Lemma balanced_or T events casts : balanced T events casts \/
  (exists a b, In (a, b) (system_lookups T) /\ ~ ctl_ok (List.concat a) (List.concat b)) \/
  (exists e vs, In (e, vs) (system_publics T events casts) /\ ~ ctl_ok e (as_entries vs)).
Proof.
  assert (D1 : forall ls : list (list entries * list entries), Forall (fun '(a, b) => ctl_ok (List.concat a) (List.concat b)) ls \/ exists a b, In (a, b) ls /\ ~ ctl_ok (List.concat a) (List.concat b)).
  { induction ls as [|[a b] ls [IH|(a' & b' & I & N)]]; [left; constructor| |right; exists a', b'; cbn; auto].
    destruct (decide (ctl_ok (List.concat a) (List.concat b))) as [H|H]; [left; constructor; assumption|right; exists a, b; cbn; auto]. }
  assert (D2 : forall ls : list (entries * list (list Z)), Forall (fun '(e, vs) => ctl_ok e (as_entries vs)) ls \/ exists e vs, In (e, vs) ls /\ ~ ctl_ok e (as_entries vs)).
  { induction ls as [|[a b] ls [IH|(a' & b' & I & N)]]; [left; constructor| |right; exists a', b'; cbn; auto].
    destruct (decide (ctl_ok a (as_entries b))) as [H|H]; [left; constructor; assumption|right; exists a, b; cbn; auto]. }
  destruct (D1 (system_lookups T)) as [A|A]; [|right; left; exact A]. destruct (D2 (system_publics T events casts)) as [B|B]; [|right; right; exact B].
  left. unfold balanced. rewrite <- system_lookups_hold, <- system_publics_hold. auto.
Qed.
Lemma total_nonneg ts : 0 <= total_rows ts.
Proof. unfold total_rows. lia. Qed.
Lemma unbalanced_bound T events casts R k : tables_shaped T -> rows_bounded R T events casts -> ~ balanced T events casts ->
  at_most ((R * 26 * P) ^ Z.of_nat k) k (system_accepted T events casts).
Proof.
  intros S [B1 B2] H. destruct (balanced_or T events casts) as [A|[(a & b & I & N)|(e & vs & I & N)]]; [tauto| |].
  - destruct (system_width T a b S I) as (w & Lw & W). rewrite List.Forall_forall in B1. specialize (B1 _ I). cbn beta iota in B1.
    eapply at_most_weaken; [apply (C81_lookup_sound a b w k W N)|apply bound_le; [split; [apply total_nonneg|exact B1]|exact Lw]|].
    intros c [A _]. rewrite List.Forall_forall in A. exact (A _ I).
  - rewrite List.Forall_forall in B2. specialize (B2 _ I). cbn beta iota in B2.
    assert (W : all_width 1 [e; as_entries vs]).
    { unfold system_publics in I. destruct I as [E|[E|[]]]; injection E as <- <-; repeat constructor; unfold as_entries, tc_event_public, tc_cast_public; rewrite ?map_map; apply width_map; reflexivity. }
    eapply at_most_weaken; [apply (C81_public_sound e vs 1 k W N)|apply bound_le; [split; [apply total_nonneg|exact B2]|lia]|].
    intros c [_ A]. rewrite List.Forall_forall in A. exact (A _ I).
Qed.

Lemma public_complete e vs c : ctl_ok e (as_entries vs) -> nonzero_denominators c [e; as_entries vs] -> public_accepted e vs c.
Proof.
  intros B N. inversion N as [|? ? N1 N']; subst. inversion N' as [|? ? N2 _]; subst.
  destruct (partial_sums_checks c e N1) as (z & E & Hz). destruct (reduce_values_some c vs N2) as [r Rr].
  exists z, r. split; [exact Hz|]. split; [exact Rr|]. apply reduce_values_fsum in Rr as [_ Rr].
  rewrite (z_checks_sum c e z Hz N1), Rr. pose proof (balanced_fsum c (e ++ negate (as_entries vs))) as S.
  rewrite fsum_app, fsum_negate in S. unfold Z.sub. apply S. intros v. rewrite mult_app, mult_negate. apply B.
Qed.
Lemma balanced_accepted T events casts c : balanced T events casts -> system_nonzero T events casts c -> system_accepted T events casts c.
Proof.
  intros (L & P1) [N1 N2]. rewrite <- system_lookups_hold in L. rewrite <- system_publics_hold in P1. split.
  - apply List.Forall_forall. intros [a b] I. rewrite List.Forall_forall in L, N1. specialize (L _ I). specialize (N1 _ I). cbn beta iota in *.
    destruct (C81_lookup_complete a b c L N1) as (zs & _ & F & S). exists zs. auto.
  - apply List.Forall_forall. intros [e vs] I. rewrite List.Forall_forall in P1, N2. specialize (P1 _ I). specialize (N2 _ I). apply public_complete; assumption.
Qed.
Lemma none_bound (Q : challenge -> Prop) n k : 0 <= n -> (forall c, ~ Q c) -> at_most (n ^ Z.of_nat k) k Q.
Proof.
  intros Hn H. apply at_most_lists; [exact Hn|]. intros L _ F. destruct L as [|c L]; [cbn; lia|]. inversion F as [|? ? [_ A] _]; subst. destruct (H c A).
Qed.
