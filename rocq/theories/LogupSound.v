From Verif Require Export LogupProofs.
Open Scope Z_scope.
#[local] Opaque finv.

(** ** Sums of fractions over the rows of a table *)
Definition fsum (c : challenge) (e : entries) : Z := sumZ (map (fun '(t, f) => f * finv (combine c t)) e).
Lemma fsum_app c e e' : fsum c (e ++ e') = fsum c e + fsum c e'.
Proof. unfold fsum. rewrite map_app, sumZ_app. reflexivity. Qed.
Lemma fsum_cons c t f e : fsum c ((t, f) :: e) = f * finv (combine c t) + fsum c e.
Proof. unfold fsum. cbn [map]. rewrite sumZ_cons. reflexivity. Qed.
Lemma fsum_negate c e : fsum c (negate e) = - fsum c e.
Proof.
  induction e as [|[t f] e IH]; [reflexivity|]. change (negate ((t, f) :: e)) with ((t, - f) :: negate e).
  rewrite !fsum_cons, IH. ring.
Qed.
Definition nonzero (c : challenge) (e : entries) : Prop := Forall (fun '(t, _) => ~ fzero (combine c t)) e.

Lemma last_snoc {A} (l : list A) x : stdpp.list.last (l ++ [x]) = Some x.
Proof. apply last_snoc. Qed.
Lemma zlast_lookup z n x : length z = S n -> z !! n = Some x -> z_last z = x.
Proof.
  intros L E. unfold z_last. destruct (exists_last (l := z)) as (z' & y & ->); [intros ->; discriminate|].
  rewrite last_last. rewrite app_length in L. cbn in L. rewrite lookup_app_r in E by lia.
  replace (n - length z')%nat with 0%nat in E by lia. cbn in E. congruence.
Qed.

Lemma frac_step x y k f : ~ fzero k -> fzero ((x - y) * k - f) -> feq x (y + f * finv k).
Proof.
  intros N E. apply feq_iff in E. apply (feq_cancel k); [exact N|].
  transitivity (y * k + f * (k * finv k)); [|apply feq_iff; replace (y * k + f * (k * finv k) - (y + f * finv k) * k) with 0 by ring; reflexivity].
  rewrite (feq_mul f f ltac:(reflexivity) _ _ (finv_l k N)).
  apply feq_iff. apply feq_iff in E. replace (x * k - (y * k + f * 1)) with ((x - y) * k - f) by ring. exact E.
Qed.

Lemma z_checks_sum c e z : z_checks c e z -> nonzero c e -> feq (z_last z) (fsum c e).
Proof.
  intros Z0 N. destruct e as [|a0 e0] using rev_ind; [|clear IHe0].
  { pose proof (zc_rows _ _ _ Z0) as L. destruct z; [reflexivity|discriminate]. }
  destruct a0 as [t f]. pose proof (zc_rows _ _ _ Z0) as L. rewrite app_length in L. cbn [length] in L.
  unfold nonzero in N. apply Forall_app in N as [N1 N2]. inversion N2 as [|? ? Nt _]; subst.
  assert (H : forall k zk, (k <= length e0)%nat -> z !! k = Some zk -> feq zk (f * finv (combine c t) + fsum c (take k e0))).
  { induction k as [|k IH]; intros zk Hk Ek.
    - pose proof (zc_last _ _ _ Z0 t f zk (last_snoc _ _) Ek) as C. rewrite take_0. change (fsum c []) with 0.
      rewrite (frac_step zk 0 (combine c t) f Nt); [|rewrite Z.sub_0_r; exact C]. apply feq_iff. 
      replace (0 + f * finv (combine c t) - (f * finv (combine c t) + 0)) with 0 by ring. reflexivity.
    - destruct (z !! k) as [y|] eqn:Ey; [|apply lookup_ge_None in Ey; lia].
      destruct (e0 !! k) as [[t' f']|] eqn:Ee; [|apply lookup_ge_None in Ee; lia].
      assert (Ee' : (e0 ++ [(t, f)]) !! k = Some (t', f')) by (rewrite lookup_app_l by lia; exact Ee).
      pose proof (zc_transition _ _ _ Z0 k t' f' y zk Ee' Ey Ek) as C.
      assert (Nt' : ~ fzero (combine c t')) by exact (proj1 (Forall_lookup _ _) N1 k _ Ee).
      rewrite (frac_step zk y (combine c t') f' Nt' C). rewrite (IH y ltac:(lia) eq_refl).
      rewrite (take_S_r _ _ _ Ee), fsum_app, fsum_cons. change (fsum c []) with 0.
      apply feq_iff. match goal with |- fzero ?x => replace x with 0 by ring end. reflexivity. }
  destruct (z !! length e0) as [y|] eqn:Ey; [|apply lookup_ge_None in Ey; lia].
  rewrite (zlast_lookup z (length e0) y ltac:(lia) Ey), (H (length e0) y ltac:(lia) Ey), firstn_all, fsum_app, fsum_cons. change (fsum c []) with 0.
  apply feq_iff. match goal with |- fzero ?x => replace x with 0 by ring end. reflexivity.
Qed.

(** ** The prover's column satisfies the checks *)
Lemma scan_length c e : forall acc, length (scan_sums c acc e) = length e.
Proof. induction e as [|[t f] e IH]; intros acc; [reflexivity|]. cbn [scan_sums length]. rewrite IH. reflexivity. Qed.
Lemma scan_lookup c e : forall acc i y, scan_sums c acc e !! i = Some y -> feq y (acc + fsum c (take (S i) e)).
Proof.
  induction e as [|[t f] e IH]; intros acc i y E; [destruct i; discriminate|]. cbn [scan_sums] in E. destruct i as [|i].
  - cbn in E. injection E as <-. rewrite feq_mod. rewrite firstn_cons, take_0, fsum_cons. change (fsum c []) with 0. apply feq_iff.
    match goal with |- fzero ?x => replace x with 0 by ring end. reflexivity.
  - cbn [list_lookup lookup] in E. change (scan_sums c ((acc + f * finv (combine c t)) `mod` P) e !! i = Some y) in E. apply IH in E. rewrite E, feq_mod. change (take (S (S i)) ((t, f) :: e)) with ((t, f) :: take (S i) e).
    rewrite fsum_cons. apply feq_iff. match goal with |- fzero ?x => replace x with 0 by ring end. reflexivity.
Qed.
Lemma rotate_snoc {A} (l : list A) x : rotate_right1 (l ++ [x]) = x :: l.
Proof. unfold rotate_right1. rewrite rev_app_distr. cbn [rev app]. rewrite rev_involutive. reflexivity. Qed.
Lemma frac_back x y k f : ~ fzero k -> feq x (y + f * finv k) -> fzero ((x - y) * k - f).
Proof.
  intros N E. apply feq_iff. rewrite E. transitivity (f * (k * finv k)); [apply feq_iff; match goal with |- fzero ?x => replace x with 0 by ring end; reflexivity|].
  rewrite (feq_mul f f ltac:(reflexivity) _ _ (finv_l k N)). apply feq_iff. replace (f * 1 - f) with 0 by ring. reflexivity.
Qed.
Lemma partial_sums_checks c e : nonzero c e -> exists z, partial_sums c e = Some z /\ z_checks c e z.
Proof.
  intros N. exists (scan_sums c 0 (rotate_right1 e)). split.
  { unfold partial_sums. rewrite (proj2 (forallb_forall _ _)); [reflexivity|]. intros [t f] I. unfold nonzero in N. rewrite List.Forall_forall in N.
    specialize (N _ I). cbn in N. apply negb_true_iff, Z.eqb_neq. exact N. }
  destruct e as [|[t f] e _] using rev_ind.
  { split; [reflexivity|intros; discriminate|intros; discriminate]. }
  rewrite rotate_snoc. unfold nonzero in N. apply Forall_app in N as [N1 N2]. inversion N2 as [|? ? Nt _]; subst.
  split.
  - rewrite scan_length, app_length. cbn [length]. lia.
  - intros t' f' z0 E E0. rewrite last_snoc in E. injection E as <- <-. apply scan_lookup in E0.
    rewrite firstn_cons, take_0, fsum_cons in E0. change (fsum c []) with 0 in E0.
    rewrite <- (Z.sub_0_r z0). apply frac_back; [exact Nt|]. rewrite E0. apply feq_iff. match goal with |- fzero ?x => replace x with 0 by ring end. reflexivity.
  - intros i t' f' zi zn E Ei En. pose proof (lookup_lt_Some _ _ _ En) as Li. rewrite scan_length in Li. cbn [length] in Li.
    assert (E1 : e !! i = Some (t', f')) by (rewrite <- E; symmetry; apply lookup_app_l; lia). clear E. rename E1 into E.
    assert (Nt' : ~ fzero (combine c t')) by exact (proj1 (Forall_lookup _ _) N1 i _ E).
    apply scan_lookup in Ei, En. apply frac_back; [exact Nt'|]. rewrite En, Ei.
    change (take (S (S i)) ((t, f) :: e)) with ((t, f) :: take (S i) e). change (take (S i) ((t, f) :: e)) with ((t, f) :: take i e).
    rewrite (take_S_r _ _ _ E), !fsum_cons, fsum_app, fsum_cons. change (fsum c []) with 0.
    apply feq_iff. match goal with |- fzero ?x => replace x with 0 by ring end. reflexivity.
Qed.

(** ** Grouping the rows by tuple *)
Lemma key_key t : tuple_key (tuple_key t) = tuple_key t.
Proof. unfold tuple_key. rewrite map_map. apply map_ext. intros x. apply Z.mod_mod. unfold P. lia. Qed.
Lemma ev_key t b : feq (reduce_with_powers (tuple_key t) b) (reduce_with_powers t b).
Proof. induction t as [|x t IH]; [reflexivity|]. cbn [tuple_key map]. rewrite !ev_cons. unfold tuple_key in IH. rewrite IH, feq_mod. reflexivity. Qed.
Lemma combine_key c t : feq (combine c (tuple_key t)) (combine c t).
Proof. unfold combine. rewrite ev_key. reflexivity. Qed.
Lemma sum_zero {A} (l : list A) : sumZ (map (fun _ => 0) l) = 0.
Proof. induction l as [|a l IH]; [reflexivity|]. cbn [map]. rewrite sumZ_cons, IH. reflexivity. Qed.
Lemma sum_add {A} (g h : A -> Z) l : sumZ (map (fun k => g k + h k) l) = sumZ (map g l) + sumZ (map h l).
Proof. induction l as [|a l IH]; [reflexivity|]. cbn [map]. rewrite !sumZ_cons, IH. ring. Qed.
Lemma sum_single (K : list (list Z)) v f (g : list Z -> Z) : NoDup K -> In v K ->
  sumZ (map (fun k => (if decide (v = k) then f else 0) * g k) K) = f * g v.
Proof.
  induction K as [|k K IH]; intros N I; [destruct I|]. inversion N as [|? ? M N']; subst. cbn [map]. rewrite sumZ_cons. destruct I as [->|I].
  - rewrite decide_True by reflexivity. assert (E0 : sumZ (map (fun k => (if decide (v = k) then f else 0) * g k) K) = 0); [|rewrite E0; ring].
    etransitivity; [|apply (sum_zero K)]. f_equal. apply map_ext_in. intros k I. rewrite decide_False; [ring|]. intros ->. apply M, elem_of_list_In, I.
  - rewrite decide_False; [rewrite IH by assumption; ring|]. intros ->. apply M, elem_of_list_In, I.
Qed.
Lemma group_sum (g : list Z -> Z) (K : list (list Z)) e : NoDup K -> Forall (fun k => tuple_key k = k) K ->
  Forall (fun '(t, _) => In (tuple_key t) K) e ->
  sumZ (map (fun '(t, f) => f * g (tuple_key t)) e) = sumZ (map (fun k => mult_of k e * g k) K).
Proof.
  intros N C. induction e as [|[t f] e IH]; intros F.
  - cbn [map]. symmetry. etransitivity; [|apply (sum_zero K)]. reflexivity.
  - inversion F as [|? ? F1 F2]; subst. cbn [map]. rewrite sumZ_cons, IH by assumption.
    rewrite <- (sum_single K (tuple_key t) f g N F1), <- sum_add. f_equal. apply map_ext_in. intros k I. rewrite mult_of_cons.
    rewrite List.Forall_forall in C. rewrite (C k I). ring.
Qed.
Definition keys (e : entries) : list (list Z) := remove_dups (map (fun '(t, _) => tuple_key t) e).
Lemma keys_in e t f : In (t, f) e -> In (tuple_key t) (keys e).
Proof. intros I. unfold keys. apply elem_of_list_In, elem_of_remove_dups, elem_of_list_In, in_map_iff. exists (t, f). auto. Qed.
Lemma keys_inv e k : In k (keys e) -> exists t f, In (t, f) e /\ k = tuple_key t.
Proof. unfold keys. intros I. apply elem_of_list_In in I. rewrite elem_of_remove_dups in I. apply elem_of_list_In, in_map_iff in I as ([t f] & E & I). exists t, f. auto. Qed.
Lemma keys_length e : (length (keys e) <= length e)%nat.
Proof.
  rewrite <- (map_length (fun '(t, _) => tuple_key t) e). unfold keys. apply NoDup_incl_length; [apply NoDup_ListNoDup, NoDup_remove_dups|].
  intros k I. apply elem_of_list_In in I. rewrite elem_of_remove_dups in I. apply elem_of_list_In, I.
Qed.
Definition poles (e : entries) (b : Z) : list (Z * Z) := map (fun k => (mult_of k e, reduce_with_powers k b)) (keys e).
Lemma sum_feq {A} (g h : A -> Z) l : Forall (fun a => feq (g a) (h a)) l -> feq (sumZ (map g l)) (sumZ (map h l)).
Proof. induction 1 as [|a l H _ IH]; [reflexivity|]. cbn [map]. rewrite !sumZ_cons, H, IH. reflexivity. Qed.
Lemma fsum_frac c e : feq (fsum c e) (frac (ch_gamma c) (poles e (ch_beta c))).
Proof.
  transitivity (sumZ (map (fun '(t, f) => f * (fun k => finv (combine c k)) (tuple_key t)) e)).
  - unfold fsum. apply sum_feq. apply List.Forall_forall. intros [t f] _. rewrite (combine_key c t). reflexivity.
  - rewrite (group_sum (fun k => finv (combine c k)) (keys e)).
    + unfold frac, poles. rewrite map_map. apply sum_feq, List.Forall_forall. intros k _. cbn. unfold combine. rewrite Z.add_comm. reflexivity.
    + apply NoDup_remove_dups.
    + apply List.Forall_forall. intros k I. apply keys_inv in I as (t & f & _ & ->). apply key_key.
    + apply List.Forall_forall. intros [t f] I. apply (keys_in e t f I).
Qed.

(** ** The challenges that can deceive *)
Lemma key_coefs k v : tuple_key k = k -> tuple_key v = v -> length k = length v -> k <> v -> ~ Forall fzero (padd k (pscale (-1) v)).
Proof.
  revert v. induction k as [|a k IH]; intros [|b v] Ek Ev L N F; try discriminate; [tauto|].
  cbn [padd pscale map] in F. inversion F as [|? ? F1 F2]; subst. cbn [tuple_key map] in Ek, Ev. injection Ek as Ea Ek. injection Ev as Eb Ev.
  assert (a = b). { rewrite <- Ea, <- Eb. replace (a + -1 * b) with (a - b) in F1 by ring. apply feq_iff in F1. exact F1. }
  subst b. apply (IH v Ek Ev); [cbn in L; lia|congruence|exact F2].
Qed.
Lemma diff_ev k v b : ev (padd k (pscale (-1) v)) b = ev k b - ev v b.
Proof. rewrite padd_ev, pscale_ev. ring. Qed.

Section Core.
  Context (e : entries) (w : nat) (v : list Z) (Q : challenge -> Prop).
  Hypothesis W : Forall (fun '(t, _) => length t = w) e.
  Hypothesis V : ~ fzero (mult_of v e).
  Hypothesis HQ : forall c, Q c -> Exists (fun '(t, _) => fzero (combine c t)) e \/ fzero (fsum c e).
  Let N := Z.of_nat (length e).

  Lemma key_of_v : In (tuple_key v) (keys e).
  Proof.
    destruct (In_dec (fun a b => decide (a = b)) (tuple_key v) (keys e)) as [I|I]; [exact I|]. exfalso. apply V. rewrite mult_of_nokey; [reflexivity|].
    intros t m It Ek. apply I. rewrite <- Ek. apply (keys_in e t m It).
  Qed.
  Lemma key_facts k : In k (keys e) -> tuple_key k = k /\ length k = w.
  Proof.
    intros I. apply keys_inv in I as (t & f & I & ->). split; [apply key_key|]. unfold tuple_key. rewrite map_length.
    rewrite List.Forall_forall in W. exact (W _ I).
  Qed.
  Lemma N_keys : Z.of_nat (length (keys e)) <= N.
  Proof. unfold N. pose proof (keys_length e). lia. Qed.

  Context (K1 K2 : list (list Z)).
  Hypothesis EK : keys e = K1 ++ tuple_key v :: K2.
  Definition sep (b : Z) : Prop := Forall (fun k => ~ fzero (ev k b - ev (tuple_key v) b)) (K1 ++ K2).
  #[local] Instance sep_dec b : Decision (sep b).
  Proof. unfold sep. apply _. Defined.
  Lemma rest_len : Z.of_nat (length (K1 ++ K2)) <= N.
  Proof. pose proof N_keys as H. rewrite EK, app_length in H. rewrite app_length. cbn [length] in H. lia. Qed.
  Lemma rest_in k : In k (K1 ++ K2) -> In k (keys e) /\ k <> tuple_key v.
  Proof.
    intros I. split.
    - rewrite EK. apply in_app_iff in I. apply in_app_iff. cbn [In]. tauto.
    - intros ->. pose proof (NoDup_remove_dups (map (fun '(t, _) => tuple_key t) e)) as D. change (NoDup (keys e)) in D. rewrite EK in D.
      apply NoDup_ListNoDup in D. apply NoDup_remove_2 in D. tauto.
  Qed.

  Lemma bad_betas l : NoDup l -> Forall canon l -> Forall (fun b => ~ sep b) l -> Z.of_nat (length l) <= N * Z.of_nat w.
  Proof.
    intros D C F. transitivity (Z.of_nat (length (K1 ++ K2)) * Z.of_nat w).
    2: { apply Z.mul_le_mono_nonneg_r; [lia|apply rest_len]. }
    apply (count_union (fun k b => fzero (ev k b - ev (tuple_key v) b))); [|exact D|].
    - intros k I l' D' I' F'. apply rest_in in I as [I Nk]. destruct (key_facts k I) as [Kk Lk]. destruct (key_facts _ key_of_v) as [Kv Lv].
      assert (C' : Forall canon l'). { apply List.Forall_forall. intros x Ix. rewrite List.Forall_forall in C. apply C, I', Ix. }
      pose proof (roots_bound_coef (padd k (pscale (-1) (tuple_key v))) l' (distinct_canon _ D' C')) as B.
      rewrite padd_length, pscale_length, Lk, Lv, Nat.max_id in B. enough (length l' < w)%nat by lia. apply B.
      + revert F'. apply List.Forall_impl. intros b. rewrite diff_ev. auto.
      + apply key_coefs; [exact Kk|exact Kv|lia|exact Nk].
    - revert F. apply List.Forall_impl. intros b H. unfold sep in H. apply not_Forall_Exists in H; [|apply _].
      apply List.Exists_exists in H as (k & I & H). exists k. split; [exact I|]. cbn beta in H. destruct (decide (fzero (ev k b - ev (tuple_key v) b))) as [G|G]; [exact G|destruct (H G)].
  Qed.

  Lemma good_gammas b l : sep b -> NoDup l -> Forall canon l -> Forall (fun g => Q (mkChallenge b g)) l -> Z.of_nat (length l) <= N + N.
  Proof.
    intros S D C F. apply (count_split (fun g => Exists (fun k => fzero (ev k b + g)) (keys e))); [exact D| |].
    - intros l' D' I' F'. transitivity (Z.of_nat (length (keys e)) * 1); [|pose proof N_keys; lia].
      assert (C' : Forall canon l'). { apply List.Forall_forall. intros x Ix. rewrite List.Forall_forall in C. apply C, I', Ix. }
      apply (count_union (fun k g => fzero (ev k b + g))); [|exact D'|].
      + intros k _ l2 D2 I2 F2. apply (count_root (ev k b)); [exact D2| |exact F2].
        apply List.Forall_forall. intros x Ix. rewrite List.Forall_forall in C'. apply C', I2, Ix.
      + revert F'. apply List.Forall_impl. intros g H. apply List.Exists_exists in H as (k & I & H). exists k. auto.
    - intros l' D' I' F'. assert (C' : Forall canon l'). { apply List.Forall_forall. intros x Ix. rewrite List.Forall_forall in C. apply C, I', Ix. }
      pose proof (num_length (poles e b)) as Ln. unfold poles in Ln at 2. rewrite map_length in Ln. pose proof N_keys.
      enough (length l' < length (num (poles e b)))%nat by lia.
      apply (roots_bound _ l' (- ev (tuple_key v) b)); [apply distinct_canon; assumption| |].
      + apply List.Forall_forall. intros g Ig. rewrite List.Forall_forall in F, F'. specialize (F g (I' g Ig)). specialize (F' g Ig).
        assert (NZ : Forall (fun k => ~ fzero (ev k b + g)) (keys e)).
        { apply List.Forall_forall. intros k Ik H0. apply F'. apply List.Exists_exists. exists k. auto. }
        apply HQ in F as [F|F].
        * exfalso. apply List.Exists_exists in F as ([t f] & It & F). rewrite List.Forall_forall in NZ. apply (NZ _ (keys_in e t f It)).
          rewrite <- (combine_key _ t) in F. exact F.
        * rewrite fsum_frac in F. cbn [ch_beta ch_gamma] in F. rewrite <- (frac_num g (poles e b)).
          -- apply fzero_mul_l, F.
          -- unfold poles. apply List.Forall_forall. intros [m x] I. apply in_map_iff in I as (k & E & I). injection E as <- <-.
             rewrite List.Forall_forall in NZ. specialize (NZ k I). replace (g + ev k b) with (ev k b + g) by ring. exact NZ.
      + unfold poles. rewrite EK, map_app. cbn [map]. apply num_nonzero.
        * rewrite (mult_of_key _ v); [exact V|apply key_key].
        * rewrite <- map_app. apply List.Forall_forall. intros [m x] I. apply in_map_iff in I as (k & E & I). injection E as <- <-.
          unfold sep in S. rewrite List.Forall_forall in S. apply S, I.
  Qed.

  Lemma challenge_bound_split L : NoDup L -> Forall (fun c => field_challenge c /\ Q c) L -> Z.of_nat (length L) <= N * (Z.of_nat w + 2) * P.
  Proof.
    intros D F. set (L2 := map (fun c => (ch_beta c, ch_gamma c)) L).
    assert (EL : length L = length L2) by (unfold L2; rewrite map_length; reflexivity). rewrite EL.
    assert (D2 : NoDup L2). { unfold L2. apply NoDup_map_list; [|exact D]. intros [b g] [b' g'] _ _ E. cbn in E. congruence. }
    assert (F2 : forall b g, In (b, g) L2 -> canon b /\ canon g /\ Q (mkChallenge b g)).
    { intros b g I. unfold L2 in I. apply in_map_iff in I as ([b' g'] & E & I). cbn in E. injection E as -> ->.
      rewrite List.Forall_forall in F. destruct (F _ I) as [[? ?] ?]. auto. }
    clearbody L2. clear D F EL L.
    replace (N * (Z.of_nat w + 2) * P) with (P * (N + N) + (N * Z.of_nat w) * P) by ring.
    assert (N0 : 0 <= N) by (unfold N; lia).
    apply (count_split (fun p => sep (fst p))); [exact D2| |].
    - intros l D' I' S. apply count_pairs; [lia|exact D'| |].
      + intros bs Db Ib. apply count_canon; [exact Db|]. apply List.Forall_forall. intros b Hb. apply Ib, in_map_iff in Hb as ([b' g] & E & Hb). cbn in E. subst b'.
        apply I' in Hb. apply (F2 _ _ Hb).
      + intros b gs Hb Dg Fg. apply in_map_iff in Hb as ([b' g0] & E & Hb). cbn in E. subst b'. rewrite List.Forall_forall in S. specialize (S _ Hb). cbn in S.
        rewrite List.Forall_forall in Fg. apply (good_gammas b); [exact S|exact Dg| |]; apply List.Forall_forall; intros g Ig; apply (F2 b g), I', Fg, Ig.
    - intros l D' I' S. apply count_pairs; [apply P_nonneg|exact D'| |].
      + intros bs Db Ib. apply bad_betas; [exact Db| |]; apply List.Forall_forall; intros b Hb; apply Ib, in_map_iff in Hb as ([b' g] & E & Hb); cbn in E; subst b'.
        * apply I' in Hb. apply (F2 _ _ Hb).
        * rewrite List.Forall_forall in S. apply (S _ Hb).
      + intros b gs Hb Dg Fg. apply count_canon; [exact Dg|]. rewrite List.Forall_forall in Fg. apply List.Forall_forall. intros g Ig. apply (F2 b g), I', Fg, Ig.
  Qed.
End Core.

Lemma challenge_bound (e : entries) w v (Q : challenge -> Prop) :
  Forall (fun '(t, _) => length t = w) e -> ~ fzero (mult_of v e) ->
  (forall c, Q c -> Exists (fun '(t, _) => fzero (combine c t)) e \/ fzero (fsum c e)) ->
  forall k, at_most ((Z.of_nat (length e) * (Z.of_nat w + 2) * P) ^ Z.of_nat k) k Q.
Proof.
  intros W V HQ. apply at_most_lists.
  - pose proof P_nonneg. nia.
  - intros L D F. pose proof (key_of_v e v V) as I. apply in_split in I as (K1 & K2 & EK).
    apply (challenge_bound_split e w v Q W V HQ K1 K2 EK L D F).
Qed.

(** ** Lookups *)
Lemma mult_negate v e : mult_of v (negate e) = - mult_of v e.
Proof.
  induction e as [|[t f] e IH]; [reflexivity|]. change (negate ((t, f) :: e)) with ((t, - f) :: negate e). rewrite !mult_of_cons, IH.
  case_decide; ring.
Qed.
Lemma mult_app v e e' : mult_of v (e ++ e') = mult_of v e + mult_of v e'.
Proof. unfold mult_of. rewrite map_app, sumZ_app. reflexivity. Qed.
Lemma concat_new a b : List.concat (ctl_new a b) = List.concat a ++ negate (List.concat b).
Proof.
  unfold ctl_new. rewrite concat_app. f_equal. induction b as [|x b IH]; [reflexivity|]. cbn [map List.concat]. rewrite IH.
  unfold negate. rewrite map_app. reflexivity.
Qed.
Lemma not_ok_witness a b : ~ ctl_ok a b -> exists v, ~ fzero (mult_of v (a ++ negate b)).
Proof.
  intros H. rewrite <- ctl_check_ok in H. apply not_true_is_false in H. unfold ctl_check in H.
  assert (G : forall l : entries, forallb (fun '(t, _) => (mult_of t a - mult_of t b) mod P =? 0) l = false -> exists v, ~ fzero (mult_of v a - mult_of v b)).
  { induction l as [|[t f] l IH]; [discriminate|]. cbn [forallb]. intros E. apply andb_false_iff in E as [E|E]; [|apply IH, E].
    exists t. apply Z.eqb_neq in E. exact E. }
  destruct (G _ H) as [v Hv]. exists v. rewrite mult_app, mult_negate. exact Hv.
Qed.
Lemma zs_sum c tables zs : Forall2 (z_checks c) tables zs -> Forall (nonzero c) tables -> feq (sumZ (map z_last zs)) (fsum c (List.concat tables)).
Proof.
  induction 1 as [|e z tables zs H _ IH]; intros N; [reflexivity|]. inversion N as [|? ? N1 N2]; subst. cbn [map List.concat].
  rewrite sumZ_cons, fsum_app, (z_checks_sum c e z H N1), (IH N2). reflexivity.
Qed.
Lemma nonzero_or c (e : entries) : nonzero c e \/ Exists (fun '(t, _) => fzero (combine c t)) e.
Proof.
  induction e as [|[t f] e [IH|IH]]; [left; constructor| |right; right; exact IH].
  destruct (decide (fzero (combine c t))) as [H|H]; [right; left; exact H|left; constructor; assumption].
Qed.
Lemma nonzero_concat c (ts : list entries) : nonzero c (List.concat ts) -> Forall (nonzero c) ts.
Proof. induction ts as [|e ts IH]; [constructor|]. cbn [List.concat]. unfold nonzero. rewrite Forall_app. intros [A B]. constructor; [exact A|apply IH, B]. Qed.

(** a balanced sum of fractions, from the multiplicities *)
Lemma balanced_fsum c e : (forall v, fzero (mult_of v e)) -> fzero (fsum c e).
Proof.
  intros H. rewrite fsum_frac. unfold frac, poles. rewrite map_map. induction (keys e) as [|k K IH]; [reflexivity|]. cbn [map]. rewrite sumZ_cons.
  apply fzero_add; [apply fzero_mul_l, H|exact IH].
Qed.

(** ** Public sub tables *)
Lemma reduce_values_fsum c vs r : reduce_values c vs = Some r -> nonzero c (as_entries vs) /\ feq r (fsum c (as_entries vs)).
Proof.
  unfold reduce_values. destruct (forallb _ vs) eqn:F; [|discriminate]. intros E. injection E as <-. split.
  - unfold nonzero, as_entries. apply List.Forall_forall. intros [t f] I. apply in_map_iff in I as (x & E & I). injection E as <- <-.
    rewrite forallb_forall in F. specialize (F x I). apply negb_true_iff, Z.eqb_neq in F. exact F.
  - rewrite feq_mod. unfold fsum, as_entries. rewrite map_map. apply sum_feq, List.Forall_forall. intros t _. cbn beta iota. rewrite Z.mul_1_l. reflexivity.
Qed.
Lemma reduce_values_some c vs : nonzero c (as_entries vs) -> exists r, reduce_values c vs = Some r.
Proof.
  intros N. unfold reduce_values. rewrite (proj2 (forallb_forall _ _)); [eauto|]. intros t I. unfold nonzero in N. rewrite List.Forall_forall in N.
  specialize (N (t, 1)). cbn in N. apply negb_true_iff, Z.eqb_neq. apply N. unfold as_entries. apply in_map_iff. exists t. auto.
Qed.
Lemma get_values_balance e : Forall (fun x => fzero (snd x) \/ fzero (snd x - 1)) e -> ctl_ok e (as_entries (get_values e)).
Proof.
  unfold ctl_ok. intros F v. induction F as [|[t f] e B F IH]; [reflexivity|]. cbn [snd] in B. unfold get_values. cbn [List.filter].
  change (map fst (List.filter (fun '(_, f) => f mod P =? 1) e)) with (get_values e). rewrite mult_of_cons.
  destruct (Z.eqb_spec (f mod P) 1) as [E|E].
  - cbn [map fst as_entries]. change (map (fun v => (v, 1)) (map fst (List.filter (fun '(_, f) => f mod P =? 1) e))) with (as_entries (get_values e)).
    rewrite mult_of_cons. case_decide.
    + assert (E1 : fzero (f - 1)) by (apply feq_iff; exact E). pose proof (fzero_add _ _ E1 IH) as G. revert G.
      match goal with |- fzero ?x -> fzero ?y => replace y with x by ring end. auto.
    + revert IH. match goal with |- fzero ?x -> fzero ?y => replace y with x by ring end. auto.
  - change (map fst (List.filter (fun '(_, f) => f mod P =? 1) e)) with (get_values e).
    assert (E0 : fzero f). { destruct B as [B|B]; [exact B|]. apply feq_iff in B. unfold feq in B. rewrite B in E. exfalso. apply E. reflexivity. }
    case_decide.
    + pose proof (fzero_add _ _ E0 IH) as G. revert G. match goal with |- fzero ?x -> fzero ?y => replace y with x by ring end. auto.
    + revert IH. match goal with |- fzero ?x -> fzero ?y => replace y with x by ring end. auto.
Qed.

(** ** The verifier's openings *)
Definition cons_to (k x : Z) (o : openings) : openings := fun k' => if k' =? k then x :: o k' else o k'.
Lemma grouped_cons k x l : forall k', grouped ((k, x) :: l) k' = if k =? k' then x :: grouped l k' else grouped l k'.
Proof. intros k'. unfold grouped. cbn [List.filter fst]. destruct (k =? k'); reflexivity. Qed.
Lemma pop_grouped k x l o : (forall k', o k' = grouped ((k, x) :: l) k') -> exists o', pop k o = (Some x, o') /\ forall k', o' k' = grouped l k'.
Proof.
  intros E. unfold pop. exists (fun k' => if k' =? k then tl (o k) else o k'). split; [f_equal; rewrite E, grouped_cons, Z.eqb_refl; reflexivity|]. intros k'. cbn beta.
  destruct (Z.eqb_spec k' k) as [->|N].
  - rewrite E, grouped_cons, Z.eqb_refl. reflexivity.
  - rewrite E, grouped_cons. destruct (Z.eqb_spec k k'); [congruence|reflexivity].
Qed.
Lemma pop_all_grouped l : forall l' o, (forall k, o k = grouped (l ++ l') k) ->
  exists o', pop_all (map fst l) o = Some (map snd l, o') /\ forall k, o' k = grouped l' k.
Proof.
  induction l as [|[k x] l IH]; intros l' o E; cbn [map fst snd pop_all]; [eauto|].
  destruct (pop_grouped k x (l ++ l') o E) as (o1 & E1 & H1). rewrite E1. destruct (IH l' o1 H1) as (o2 & E2 & H2). rewrite E2. eauto.
Qed.
Definition sums_zero (ls : list (list (Z * Z))) : bool := forallb (fun l => sumZ (map snd l) mod P =? 0) ls.
Lemma verify_lookups_grouped ls : forall l' o, (forall k, o k = grouped (List.concat ls ++ l') k) ->
  exists o', verify_lookups (map (map fst) ls) o = Some (if sums_zero ls then Some o' else None) /\ forall k, o' k = grouped l' k.
Proof.
  induction ls as [|l ls IH]; intros l' o E; cbn [map verify_lookups sums_zero forallb]; [eauto|].
  cbn [List.concat] in E. assert (E' : forall k, o k = grouped (l ++ (List.concat ls ++ l')) k) by (intros k; rewrite E, app_assoc; reflexivity).
  destruct (pop_all_grouped l _ o E') as (o1 & E1 & H1). rewrite E1. destruct (IH l' o1 H1) as (o2 & E2 & H2).
  destruct (sumZ (map snd l) mod P =? 0); cbn [andb]; [rewrite E2; eauto|]. exists o2. auto.
Qed.
Lemma verify_public_grouped ps : forall red o, (forall k, red k = grouped (map (fun '(k, r, _) => (k, r)) ps) k) ->
  (forall k, o k = grouped (map (fun '(k, _, x) => (k, x)) ps) k) ->
  verify_public (map (fun '(k, _, _) => k) ps) red o = forallb (fun '(_, r, x) => r mod P =? x mod P) ps.
Proof.
  induction ps as [|[[k r] x] ps IH]; intros red o E F; [reflexivity|]. cbn [map verify_public forallb] in *.
  destruct (pop_grouped _ _ _ red E) as (red1 & E1 & H1). destruct (pop_grouped _ _ _ o F) as (o1 & F1 & G1). rewrite E1, F1, (IH _ _ H1 G1). reflexivity.
Qed.
