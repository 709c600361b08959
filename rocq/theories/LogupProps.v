(** C81: comparing two tables through compressed sums of fractions decides whether they are balanced, except for few
    challenges. *)
From Verif Require Export LogupSound.
Open Scope Z_scope.
#[local] Opaque finv.

(** Lookups whose multiplicities do not balance: of the P^(2k) lists of k challenges, at most
    (rows * (columns + 2) * P)^k let the verifier accept, whatever auxiliary columns the prover commits to. *)
Theorem C81_lookup_sound looking looked w k : all_width w (looking ++ looked) ->
  ~ ctl_ok (List.concat looking) (List.concat looked) ->
  at_most ((total_rows (looking ++ looked) * (Z.of_nat w + 2) * P) ^ Z.of_nat k) k (lookup_accepted looking looked).
Proof.
  intros W H. apply not_ok_witness in H as [v V]. rewrite <- concat_new in V.
  replace (total_rows (looking ++ looked)) with (Z.of_nat (length (List.concat (ctl_new looking looked)))).
  2: { rewrite concat_new. unfold total_rows, negate. rewrite List.concat_app, !app_length, map_length. reflexivity. }
  apply (challenge_bound _ w v); [|exact V|].
  - rewrite concat_new. unfold all_width in W. apply Forall_app in W as [W1 W2].
    assert (G : forall ts : list entries, Forall (Forall (fun '(t, _) => length t = w)) ts -> Forall (fun '(t, _) => length t = w) (List.concat ts)).
    { induction 1 as [|x l Hx _ IH]; [constructor|]. cbn [List.concat]. apply Forall_app. auto. }
    apply Forall_app. split; [apply G, W1|]. apply G in W2. unfold negate. apply List.Forall_forall. intros [t f] I.
    apply in_map_iff in I as ([t' f'] & E & I). injection E as <- <-. rewrite List.Forall_forall in W2. exact (W2 _ I).
  - intros c (zs & F & S). destruct (nonzero_or c (List.concat (ctl_new looking looked))) as [N|N]; [right|left; exact N].
    rewrite (zs_sum c _ zs F (nonzero_concat _ _ N)) in S. exact S.
Qed.

(** Balanced lookups: unless a tuple is compressed to zero, the prover's running sums exist, satisfy the constraints and
    add up to zero. *)
Theorem C81_lookup_complete looking looked c : ctl_ok (List.concat looking) (List.concat looked) ->
  nonzero_denominators c (looking ++ looked) ->
  exists zs, map (partial_sums c) (ctl_new looking looked) = map Some zs /\
    Forall2 (z_checks c) (ctl_new looking looked) zs /\ fzero (sumZ (map z_last zs)).
Proof.
  intros B N. assert (N' : Forall (nonzero c) (ctl_new looking looked)).
  { unfold nonzero_denominators in N. unfold ctl_new. apply Forall_app in N as [N1 N2]. apply Forall_app. split; [exact N1|].
    apply List.Forall_forall. intros e I. apply in_map_iff in I as (e' & <- & I). rewrite List.Forall_forall in N2. specialize (N2 _ I).
    unfold nonzero, negate. apply List.Forall_forall. intros [t f] J. apply in_map_iff in J as ([t' f'] & E & J). injection E as <- <-.
    rewrite List.Forall_forall in N2. exact (N2 _ J). }
  assert (H : exists zs, map (partial_sums c) (ctl_new looking looked) = map Some zs /\ Forall2 (z_checks c) (ctl_new looking looked) zs).
  { induction N' as [|e l He _ (zs & E & F)]; [exists []; split; [reflexivity|constructor]|].
    destruct (partial_sums_checks c e He) as (z & Ez & Hz). exists (z :: zs). cbn [map]. rewrite Ez, E. split; [reflexivity|constructor; assumption]. }
  destruct H as (zs & E & F). exists zs. split; [exact E|]. split; [exact F|].
  rewrite (zs_sum c _ zs F N'). apply balanced_fsum. intros v. rewrite concat_new, mult_app, mult_negate. apply B.
Qed.

(** The column of a table is determined by the constraints: any column that satisfies them ends in the same value as the
    prover's. *)
Theorem C81_last_value_determined c e z z' : nonzero_denominators c [e] -> z_checks c e z -> partial_sums c e = Some z' ->
  feq (z_last z) (z_last z').
Proof.
  intros N H E. inversion N as [|? ? N1 _]; subst. destruct (partial_sums_checks c e N1) as (z2 & E2 & H2). rewrite E in E2. injection E2 as <-.
  rewrite (z_checks_sum c e z H N1), (z_checks_sum c e z' H2 N1). reflexivity.
Qed.

(** Public sub tables: claimed values that are not the rows selected by the filter *)
Theorem C81_public_sound e vs w k : all_width w [e; as_entries vs] -> ~ ctl_ok e (as_entries vs) ->
  at_most ((total_rows [e; as_entries vs] * (Z.of_nat w + 2) * P) ^ Z.of_nat k) k (public_accepted e vs).
Proof.
  intros W H. apply not_ok_witness in H as [v V].
  replace (total_rows [e; as_entries vs]) with (Z.of_nat (length (e ++ negate (as_entries vs)))).
  2: { unfold total_rows, negate. cbn [List.concat]. rewrite app_nil_r, !app_length, map_length. reflexivity. }
  apply (challenge_bound _ w v); [|exact V|].
  - inversion W as [|? ? W1 W']; subst. inversion W' as [|? ? W2 _]; subst. apply Forall_app. split; [exact W1|].
    unfold negate. apply List.Forall_forall. intros [t f] I. apply in_map_iff in I as ([t' f'] & E & I). injection E as <- <-.
    rewrite List.Forall_forall in W2. exact (W2 _ I).
  - intros c (z & r & Hz & R & S). destruct (nonzero_or c e) as [N|N]; [right|left; apply Exists_app; left; exact N].
    apply reduce_values_fsum in R as [_ R]. rewrite fsum_app, fsum_negate. rewrite (z_checks_sum c e z Hz N), R in S.
    replace (fsum c e + - fsum c (as_entries vs)) with (fsum c e - fsum c (as_entries vs)) by ring. exact S.
Qed.

(** The honest values of a public sub table whose filter takes the values zero and one *)
Theorem C81_public_complete e c : Forall (fun x => fzero (snd x) \/ fzero (snd x - 1)) e -> nonzero_denominators c [e] ->
  ctl_ok e (as_entries (get_values e)) /\
  exists z r, partial_sums c e = Some z /\ z_checks c e z /\ reduce_values c (get_values e) = Some r /\ fzero (z_last z - r).
Proof.
  intros B N. pose proof (get_values_balance e B) as G. split; [exact G|]. inversion N as [|? ? N1 _]; subst.
  destruct (partial_sums_checks c e N1) as (z & E & Hz). destruct (reduce_values_some c (get_values e)) as [r R].
  { unfold nonzero, as_entries, get_values. apply List.Forall_forall. intros [t f] I. apply in_map_iff in I as (t' & E' & I). injection E' as <- <-.
    apply in_map_iff in I as ([t2 f2] & E' & I). cbn in E'. subst t2. apply filter_In in I as [I _]. rewrite List.Forall_forall in N1. exact (N1 _ I). }
  exists z, r. split; [exact E|]. split; [exact Hz|]. split; [exact R|]. apply reduce_values_fsum in R as [_ R].
  rewrite (z_checks_sum c e z Hz N1), R. pose proof (balanced_fsum c (e ++ negate (as_entries (get_values e)))) as S.
  rewrite fsum_app, fsum_negate in S. unfold Z.sub. apply S. intros v. rewrite mult_app, mult_negate. apply G.
Qed.

(** The verifier reads the openings in the order in which they were written: it accepts exactly when, for each challenge, the
    values of each lookup add up to zero and those of each public sub table are the reduced values. *)
Theorem C81_verifier_openings n ctls pubs (zs : list (list (Z * Z))) (ps : list (Z * Z * Z)) :
  map (map fst) zs = List.concat (List.repeat ctls n) -> map (fun '(kind, _, _) => kind) ps = List.concat (List.repeat pubs n) ->
  verify_ctls_and_public n ctls pubs (grouped (map (fun '(kind, r, _) => (kind, r)) ps))
    (grouped (List.concat zs ++ map (fun '(kind, _, z) => (kind, z)) ps)) =
  Some (forallb (fun l => sumZ (map snd l) mod P =? 0) zs && forallb (fun '(_, r, z) => r mod P =? z mod P) ps).
Proof.
  intros E F. unfold verify_ctls_and_public. rewrite <- E, <- F.
  destruct (verify_lookups_grouped zs (map (fun '(kind, _, z) => (kind, z)) ps) (grouped (List.concat zs ++ map (fun '(kind, _, z) => (kind, z)) ps)))
    as (o' & E1 & H1); [reflexivity|]. rewrite E1. change (sums_zero zs) with (forallb (fun l => sumZ (map snd l) mod P =? 0) zs).
  destruct (forallb (fun l => sumZ (map snd l) mod P =? 0) zs); [|reflexivity].
  rewrite (verify_public_grouped ps _ _ ltac:(reflexivity) H1). reflexivity.
Qed.

(** A table with a row whose filter is zero and whose tuple is compressed to zero leaves its column free there: for such a
    challenge an unbalanced lookup is accepted (so the bound above cannot be zero). *)
Theorem C81_zero_denominator_accepts : exists looking looked c, all_width 1 (looking ++ looked) /\ field_challenge c /\
  ~ ctl_ok (List.concat looking) (List.concat looked) /\ lookup_accepted looking looked c.
Proof.
  exists [[([5], 1); ([0], 0)]], [[([7], 1); ([0], 0)]], (mkChallenge 3 0).
  split; [repeat constructor|]. split; [split; split; vm_compute; congruence|].
  split; [intros H; specialize (H [5]); vm_compute in H; discriminate|].
  exists [[- finv 5; 0]; [finv 7; 0]]. split; [|vm_compute; reflexivity].
  assert (two : forall c e0 e1 z0 z1, fzero (z0 * combine c (fst e1) - snd e1) -> fzero ((z1 - z0) * combine c (fst e0) - snd e0) -> z_checks c [e0; e1] [z0; z1]).
  { intros c [t0 f0] [t1 f1] z0 z1 H0 H1. split; [reflexivity| |].
    - intros t f z E Ez. cbn in E, Ez. injection E as <- <-. injection Ez as <-. exact H0.
    - intros [|[|i]] t f y y' E Ey En; cbn in E, Ey, En; try discriminate. injection E as <- <-. injection Ey as <-. injection En as <-. exact H1. }
  constructor; [|constructor; [|constructor]]; apply two; vm_compute; reflexivity.
Qed.

(** Tuples of different lengths are not told apart: the two sides of a lookup must have the same number of columns. *)
Theorem C81_equal_widths_needed : exists looking looked, ~ ctl_ok (List.concat looking) (List.concat looked) /\
  forall c, nonzero_denominators c (looking ++ looked) -> lookup_accepted looking looked c.
Proof.
  exists [[([5], 1)]], [[([5; 0], 1)]]. split; [intros H; specialize (H [5]); vm_compute in H; discriminate|].
  intros c N. inversion N as [|? ? N1 _]; subst. inversion N1 as [|? ? N2 _]; subst.
  exists [[finv (combine c [5])]; [- finv (combine c [5])]]. split.
  - assert (one : forall t f z0, fzero (z0 * combine c t - f) -> z_checks c [(t, f)] [z0]).
    { intros t f z0 H0. split; [reflexivity| |].
      - intros t' f' z E Ez. cbn in E, Ez. injection E as <- <-. injection Ez as <-. exact H0.
      - intros [|i] t' f' y y' _ _ En; discriminate. }
    assert (I : feq (finv (combine c [5]) * combine c [5]) 1) by (rewrite Z.mul_comm; apply finv_l, N2).
    constructor; [apply one, feq_iff, I|]. constructor; [|constructor]. apply one. apply feq_iff.
    change (combine c [5; 0]) with ((0 * ch_beta c + 0) * ch_beta c + 5 + ch_gamma c). replace ((0 * ch_beta c + 0) * ch_beta c + 5 + ch_gamma c) with (combine c [5]) by (unfold combine; cbn; ring).
    rewrite Z.mul_opp_l, I. reflexivity.
  - cbn [map]. unfold z_last. cbn. unfold sumZ. cbn. apply fzero_feq, feq_iff. match goal with |- fzero ?x => replace x with 0 by ring end. reflexivity.
Qed.

(** ** Concrete cases *)
Definition ex_looking : list entries := [[([1; 2], 1); ([3; 4], 1); ([1; 2], 1); ([0; 0], 0)]; [([3; 4], 0); ([3; 4], 1)]].
Definition ex_looked : list entries := [[([1; 2], 2); ([3; 4], 2)]].
Definition ex_bad : list entries := [[([1; 2], 3); ([3; 4], 1)]].
Example C81_balanced : ctl_ok (List.concat ex_looking) (List.concat ex_looked).
Proof. apply ctl_check_ok. vm_compute. reflexivity. Qed.
Example C81_unbalanced : all_width 2 (ex_looking ++ ex_bad) /\ ~ ctl_ok (List.concat ex_looking) (List.concat ex_bad).
Proof. split; [repeat constructor|]. intros H. apply ctl_check_ok in H. vm_compute in H. discriminate. Qed.
Definition ex_challenge : challenge := mkChallenge 1234567 7654321.
Example C81_denominators : nonzero_denominators ex_challenge (ex_looking ++ ex_looked).
Proof. repeat constructor; intros H; vm_compute in H; discriminate. Qed.
Example C81_columns : map (fun z => option_map (fun z => z_last z mod P) z) (map (partial_sums ex_challenge) (ctl_new ex_looking ex_looked)) =
  [Some 6815395520801812096; Some 11728458932260470907; Some 18349633685766885639].
Proof. vm_compute. reflexivity. Qed.
(** 2^28 rows, 50 columns, two challenges: fewer than one challenge set in 2^60 *)
Example C81_negligible looking looked : all_width 50 (looking ++ looked) -> total_rows (looking ++ looked) <= 2 ^ 28 ->
  ~ ctl_ok (List.concat looking) (List.concat looked) ->
  exists n, at_most n 2 (lookup_accepted looking looked) /\ n * 2 ^ 60 < (P * P) ^ 2.
Proof.
  intros W R H. exists ((total_rows (looking ++ looked) * (Z.of_nat 50 + 2) * P) ^ Z.of_nat 2). split; [apply C81_lookup_sound; assumption|].
  apply Z.le_lt_trans with ((2 ^ 28 * 52 * P) ^ 2 * 2 ^ 60); [|vm_compute; reflexivity].
  apply Z.mul_le_mono_nonneg_r; [lia|]. change (Z.of_nat 2) with 2. change (Z.of_nat 50 + 2) with 52.
  assert (0 <= total_rows (looking ++ looked)) by (unfold total_rows; lia). pose proof P_nonneg.
  apply Z.pow_le_mono_l. split; [nia|]. apply Z.mul_le_mono_nonneg_r; [assumption|]. lia.
Qed.
Definition ex_public : entries := [([7; 0], 1); ([8; 1], 0); ([9; 2], 1)].
Example C81_public_values : get_values ex_public = [[7; 0]; [9; 2]] /\ nonzero_denominators ex_challenge [ex_public] /\
  ~ ctl_ok ex_public (as_entries [[7; 0]; [9; 3]]).
Proof.
  split; [reflexivity|]. split; [repeat constructor; intros H; vm_compute in H; discriminate|].
  intros H. apply ctl_check_ok in H. vm_compute in H. discriminate.
Qed.
(** two challenges, tables 1 and 2 with a lookup between them, table 2 with a public sub table *)
Example C81_openings_example :
  verify_ctls_and_public 2 [[1; 2]] [2] (grouped [(2, 7); (2, 8)]) (grouped [(1, 5); (2, -5); (1, 6); (2, -6); (2, 7); (2, 8)]) = Some true /\
  verify_ctls_and_public 2 [[1; 2]] [2] (grouped [(2, 7); (2, 8)]) (grouped [(1, 5); (2, -5); (1, 6); (2, -7); (2, 7); (2, 8)]) = Some false.
Proof. split; vm_compute; reflexivity. Qed.

Print Assumptions C81_lookup_sound.
Print Assumptions C81_lookup_complete.
Print Assumptions C81_last_value_determined.
Print Assumptions C81_public_sound.
Print Assumptions C81_public_complete.
Print Assumptions C81_verifier_openings.
Print Assumptions C81_zero_denominator_accepts.
Print Assumptions C81_equal_widths_needed.
