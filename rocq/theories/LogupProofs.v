From Coq Require Import Setoid Morphisms Ring Field.
From Verif Require Export LogupSpec.
Open Scope Z_scope.

(** ** The prime field on integers *)
Lemma feq_iff a b : feq a b <-> fzero (a - b).
Proof. unfold feq, fzero, P. lia. Qed.
#[global] Instance feq_equiv : Equivalence feq.
Proof. split; unfold feq; repeat intro; congruence. Qed.
#[global] Instance feq_add : Proper (feq ==> feq ==> feq) Z.add.
Proof. intros a b E c d F. unfold feq in *. rewrite Zplus_mod, E, F, <- Zplus_mod. reflexivity. Qed.
#[global] Instance feq_mul : Proper (feq ==> feq ==> feq) Z.mul.
Proof. intros a b E c d F. unfold feq in *. rewrite Zmult_mod, E, F, <- Zmult_mod. reflexivity. Qed.
#[global] Instance feq_sub : Proper (feq ==> feq ==> feq) Z.sub.
Proof. intros a b E c d F. unfold feq in *. rewrite Zminus_mod, E, F, <- Zminus_mod. reflexivity. Qed.
#[global] Instance feq_opp : Proper (feq ==> feq) Z.opp.
Proof. intros a b E. apply (feq_sub 0 0 eq_refl _ _ E). Qed.
#[global] Instance feq_inv : Proper (feq ==> eq) finv.
Proof. intros a b E. unfold finv. unfold feq in E. rewrite E. reflexivity. Qed.
#[global] Instance fzero_proper : Proper (feq ==> iff) fzero.
Proof. intros a b E. unfold fzero, feq in *. rewrite E. reflexivity. Qed.
Lemma feq_mod a : feq (a mod P) a.
Proof. unfold feq. apply Z.mod_mod. unfold P. lia. Qed.
Lemma fzero_feq a : fzero a <-> feq a 0.
Proof. unfold fzero, feq. reflexivity. Qed.
#[global] Instance fzero_dec a : Decision (fzero a).
Proof. unfold fzero. apply _. Defined.
Lemma finv_l x : ~ fzero x -> feq (x * finv x) 1.
Proof. intros N. unfold feq. rewrite (proj1 (finv_ok x N)). reflexivity. Qed.
Lemma feq_cancel c a b : ~ fzero c -> feq (a * c) (b * c) -> feq a b.
Proof.
  intros N E. apply feq_iff in E. apply feq_iff. replace (a * c - b * c) with ((a - b) * c) in E by ring.
  apply fzero_mul in E as [E|E]; tauto.
Qed.

#[local] Opaque finv.
(** ** Polynomials: lists of coefficients, the constant one first; [reduce_with_powers] is evaluation *)
Notation ev := reduce_with_powers.
Lemma ev_cons a p x : ev (a :: p) x = ev p x * x + a.
Proof. reflexivity. Qed.
Fixpoint pdiv (a : Z) (p : list Z) : list Z :=
  match p with [] => [] | c :: q => match q with [] => [] | _ => ev q a :: pdiv a q end end.
Lemma pdiv_length a p : length (pdiv a p) = pred (length p).
Proof.
  induction p as [|c q IH]; [reflexivity|]. destruct q as [|d q]; [reflexivity|].
  change (pdiv a (c :: d :: q)) with (ev (d :: q) a :: pdiv a (d :: q)). cbn [length pred]. cbn [length pred] in IH. rewrite IH. reflexivity.
Qed.
Lemma pdiv_ok a p x : ev p x = (x - a) * ev (pdiv a p) x + ev p a.
Proof.
  induction p as [|c q IH]; [cbn; ring|]. destruct q as [|d q]; [cbn; ring|].
  change (pdiv a (c :: d :: q)) with (ev (d :: q) a :: pdiv a (d :: q)). rewrite (ev_cons c (d :: q) x), (ev_cons c (d :: q) a), (ev_cons _ (pdiv a (d :: q))).
  rewrite IH. ring.
Qed.
Lemma pdiv_zero a p : Forall fzero (pdiv a p) -> fzero (ev p a) -> Forall fzero p.
Proof.
  induction p as [|c q IH]; [constructor|]. destruct q as [|d q].
  - intros _ E. constructor; [|constructor]. cbn in E. exact E.
  - change (pdiv a (c :: d :: q)) with (ev (d :: q) a :: pdiv a (d :: q)). rewrite (ev_cons c (d :: q)).
    intros F E. inversion F as [|? ? F1 F2]; subst. constructor; [|apply IH; assumption].
    rewrite fzero_feq in F1 |- *. rewrite fzero_feq in E. rewrite F1 in E. rewrite <- E. replace (0 * a + c) with c by ring. reflexivity.
Qed.
Definition distinct (l : list Z) : Prop := NoDup (map (fun x => x mod P) l).
Lemma roots_zero p roots : distinct roots -> Forall (fun a => fzero (ev p a)) roots -> (length p <= length roots)%nat -> Forall fzero p.
Proof.
  revert p. induction roots as [|a roots IH]; intros p D F L.
  - destruct p; [constructor|cbn in L; lia].
  - inversion D as [|? ? N D']; subst. inversion F as [|? ? F1 F2]; subst.
    apply (pdiv_zero a); [|exact F1]. apply IH; [exact D'| |rewrite pdiv_length; cbn in L; lia].
    rewrite List.Forall_forall in F2 |- *. intros r I. specialize (F2 r I).
    rewrite (pdiv_ok a) in F2. rewrite fzero_feq in F2. assert (E : feq (ev p a) 0) by (apply fzero_feq; exact F1). rewrite E in F2.
    replace ((r - a) * ev (pdiv a p) r + 0) with ((r - a) * ev (pdiv a p) r) in F2 by ring.
    apply fzero_feq, fzero_mul in F2 as [F2|F2]; [|exact F2]. exfalso. apply N. apply feq_iff in F2. unfold feq in F2.
    rewrite <- F2. apply elem_of_list_In. apply in_map_iff. exists r. auto.
Qed.
Lemma ev_zero p x : Forall fzero p -> fzero (ev p x).
Proof.
  induction 1 as [|a p H _ IH]; [reflexivity|]. rewrite ev_cons. rewrite fzero_feq in H, IH |- *. rewrite H, IH. reflexivity.
Qed.
(** fewer roots than coefficients *)
Lemma roots_bound p roots x : distinct roots -> Forall (fun a => fzero (ev p a)) roots -> ~ fzero (ev p x) -> (length roots < length p)%nat.
Proof.
  intros D F N. destruct (le_lt_dec (length p) (length roots)) as [L|L]; [|exact L]. exfalso. apply N, ev_zero, (roots_zero p roots); auto.
Qed.
Lemma roots_bound_coef p roots : distinct roots -> Forall (fun a => fzero (ev p a)) roots -> ~ Forall fzero p -> (length roots < length p)%nat.
Proof.
  intros D F N. destruct (le_lt_dec (length p) (length roots)) as [L|L]; [|exact L]. exfalso. apply N, (roots_zero p roots); auto.
Qed.
Fixpoint padd (p q : list Z) : list Z :=
  match p, q with [], _ => q | _, [] => p | a :: p', b :: q' => a + b :: padd p' q' end.
Definition pscale (m : Z) (p : list Z) : list Z := map (Z.mul m) p.
Lemma padd_ev p : forall q x, ev (padd p q) x = ev p x + ev q x.
Proof.
  induction p as [|a p IH]; intros [|b q] x; [reflexivity|cbn [padd]; rewrite ev_cons; cbn; ring|cbn [padd]; rewrite ev_cons; cbn; ring|].
  cbn [padd]. rewrite !ev_cons, IH. ring.
Qed.
Lemma padd_length p : forall q, length (padd p q) = Nat.max (length p) (length q).
Proof. induction p as [|a p IH]; intros [|b q]; cbn [padd length]; [lia|lia|lia|]. rewrite IH. lia. Qed.
Lemma pscale_ev m p x : ev (pscale m p) x = m * ev p x.
Proof. induction p as [|a p IH]; [cbn; ring|]. cbn [pscale map]. rewrite !ev_cons. unfold pscale in IH. rewrite IH. ring. Qed.
Lemma pscale_length m p : length (pscale m p) = length p.
Proof. apply map_length. Qed.
(** multiplication by (X + x) *)
Definition plin (x : Z) (p : list Z) : list Z := padd (pscale x p) (0 :: p).
Lemma plin_ev x p g : ev (plin x p) g = (g + x) * ev p g.
Proof. unfold plin. rewrite padd_ev, pscale_ev, ev_cons. ring. Qed.
Lemma plin_length x p : length (plin x p) = S (length p).
Proof. unfold plin. rewrite padd_length, pscale_length. cbn [length]. lia. Qed.

(** ** Sums of fractions: Σ m / (g + x) as one fraction *)
Fixpoint den (l : list (Z * Z)) : list Z := match l with [] => [1] | (_, x) :: l' => plin x (den l') end.
Fixpoint num (l : list (Z * Z)) : list Z := match l with [] => [] | (m, x) :: l' => padd (pscale m (den l')) (plin x (num l')) end.
Lemma den_length l : length (den l) = S (length l).
Proof. induction l as [|[m x] l IH]; [reflexivity|]. cbn [den]. rewrite plin_length, IH. reflexivity. Qed.
Lemma num_length l : (length (num l) <= length l)%nat.
Proof. induction l as [|[m x] l IH]; cbn [num length]; [lia|]. rewrite padd_length, pscale_length, plin_length, den_length. lia. Qed.
Definition frac (g : Z) (l : list (Z * Z)) : Z := sumZ (map (fun '(m, x) => m * finv (g + x)) l).
Lemma frac_num g l : Forall (fun '(_, x) => ~ fzero (g + x)) l -> feq (frac g l * ev (den l) g) (ev (num l) g).
Proof.
  induction l as [|[m x] l IH]; intros F; [reflexivity|]. inversion F as [|? ? F1 F2]; subst. specialize (IH F2).
  unfold frac in *. cbn [map den num]. rewrite sumZ_cons, padd_ev, pscale_ev, !plin_ev, <- IH.
  set (S0 := sumZ _). set (D := ev (den l) g).
  replace ((m * finv (g + x) + S0) * ((g + x) * D)) with (m * ((g + x) * finv (g + x)) * D + (g + x) * (S0 * D)) by ring.
  apply feq_add; [|reflexivity]. apply feq_mul; [|reflexivity]. rewrite <- (Z.mul_1_r m) at 2. apply feq_mul; [reflexivity|]. apply finv_l, F1.
Qed.
Lemma den_root l m x : In (m, x) l -> fzero (ev (den l) (- x)).
Proof.
  induction l as [|[m' x'] l IH]; intros I; [destruct I|]. cbn [den]. rewrite plin_ev. destruct I as [E|I].
  - injection E as <- <-. apply fzero_mul_l. replace (- x' + x') with 0 by ring. reflexivity.
  - apply fzero_mul_r, IH, I.
Qed.
Lemma den_nonroot l g : Forall (fun '(_, x) => ~ fzero (g + x)) l -> ~ fzero (ev (den l) g).
Proof.
  induction 1 as [|[m x] l H _ IH]; [cbn; unfold fzero, P; lia|]. cbn [den]. rewrite plin_ev. intros E. apply fzero_mul in E. tauto.
Qed.
(** the numerator does not vanish at the pole of a fraction with a non-zero numerator that is separated from the others *)
Lemma num_nonzero l1 m x l2 : ~ fzero m -> Forall (fun '(_, y) => ~ fzero (y - x)) (l1 ++ l2) -> ~ fzero (ev (num (l1 ++ (m, x) :: l2)) (- x)).
Proof.
  intros Nm. induction l1 as [|[m' x'] l1 IH]; intros F; cbn [app num].
  - rewrite padd_ev, pscale_ev, plin_ev. replace (m * ev (den l2) (- x) + (- x + x) * ev (num l2) (- x)) with (m * ev (den l2) (- x)) by ring.
    intros E. apply fzero_mul in E as [E|E]; [tauto|]. revert E. apply den_nonroot. revert F. cbn [app]. apply List.Forall_impl.
    intros [? y]. replace (- x + y) with (y - x) by ring. auto.
  - cbn [app] in F. inversion F as [|? ? F1 F2]; subst. specialize (IH F2). rewrite padd_ev, pscale_ev, plin_ev.
    assert (D : fzero (ev (den (l1 ++ (m, x) :: l2)) (- x))). { apply (den_root _ m). apply in_or_app. right. left. reflexivity. }
    intros E. assert (E' : fzero ((- x + x') * ev (num (l1 ++ (m, x) :: l2)) (- x))).
    { apply (fzero_mul_r (- m')) in D. replace (- m' * ev (den (l1 ++ (m, x) :: l2)) (- x)) with (- (m' * ev (den (l1 ++ (m, x) :: l2)) (- x))) in D by ring.
      pose proof (fzero_add _ _ E D) as G. revert G. generalize (m' * ev (den (l1 ++ (m, x) :: l2)) (- x)). intros k G.
      replace (k + (- x + x') * ev (num (l1 ++ (m, x) :: l2)) (- x) + - k) with ((- x + x') * ev (num (l1 ++ (m, x) :: l2)) (- x)) in G by ring. exact G. }
    clear E. rename E' into E.
    apply fzero_mul in E as [E|E]; [|tauto]. apply F1. replace (x' - x) with (- x + x') by ring. exact E.
Qed.

(** ** Counting *)
Lemma count_union {X A} (R : X -> A -> Prop) `{forall i a, Decision (R i a)} (c : Z) (I : list X) : forall L : list A,
  (forall i, In i I -> forall L', NoDup L' -> incl L' L -> Forall (R i) L' -> Z.of_nat (length L') <= c) ->
  NoDup L -> Forall (fun a => exists i, In i I /\ R i a) L -> Z.of_nat (length L) <= Z.of_nat (length I) * c.
Proof.
  induction I as [|i I IH]; intros L B N F.
  - destruct L as [|a L]; [cbn; lia|]. inversion F as [|? ? (i & [] & _)].
  - set (L1 := List.filter (fun a => bool_decide (R i a)) L). set (L2 := List.filter (fun a => negb (bool_decide (R i a))) L).
    assert (E : (length L = length L1 + length L2)%nat). { unfold L1, L2. clear. induction L as [|a L IH]; [reflexivity|]. cbn. destruct (bool_decide (R i a)); cbn; lia. }
    assert (H1 : Z.of_nat (length L1) <= c).
    { apply (B i); [left; reflexivity|apply NoDup_ListNoDup, List.NoDup_filter, NoDup_ListNoDup, N|intros a Ia; apply filter_In in Ia; tauto|].
      apply List.Forall_forall. intros a Ia. apply filter_In in Ia as [_ Ia]. apply bool_decide_eq_true in Ia. exact Ia. }
    assert (H2 : Z.of_nat (length L2) <= Z.of_nat (length I) * c).
    { apply IH; [intros j J L' N' I'; apply B; [right; exact J|exact N'|intros a Ia; apply I', filter_In in Ia; tauto]|apply NoDup_ListNoDup, List.NoDup_filter, NoDup_ListNoDup, N|].
      apply List.Forall_forall. intros a Ia. apply filter_In in Ia as [Ia Na]. apply negb_true_iff, bool_decide_eq_false in Na.
      rewrite List.Forall_forall in F. destruct (F a Ia) as (j & [->|J] & Rj); [tauto|exists j; auto]. }
    cbn [length]. rewrite E. clear - H1 H2. lia.
Qed.
Lemma count_split {A} (Q : A -> Prop) `{forall a, Decision (Q a)} (b c : Z) (L : list A) :
  NoDup L -> (forall L', NoDup L' -> incl L' L -> Forall Q L' -> Z.of_nat (length L') <= b) ->
  (forall L', NoDup L' -> incl L' L -> Forall (fun a => ~ Q a) L' -> Z.of_nat (length L') <= c) -> Z.of_nat (length L) <= b + c.
Proof.
  intros N B C. set (L1 := List.filter (fun a => bool_decide (Q a)) L). set (L2 := List.filter (fun a => negb (bool_decide (Q a))) L).
  assert (E : (length L = length L1 + length L2)%nat). { unfold L1, L2. clear. induction L as [|a L IH]; [reflexivity|]. cbn. destruct (bool_decide (Q a)); cbn; lia. }
  assert (H1 : Z.of_nat (length L1) <= b).
  { apply B; [apply NoDup_ListNoDup, List.NoDup_filter, NoDup_ListNoDup, N|intros a Ia; apply filter_In in Ia; tauto|].
    apply List.Forall_forall. intros a Ia. apply filter_In in Ia as [_ Ia]. apply bool_decide_eq_true in Ia. exact Ia. }
  assert (H2 : Z.of_nat (length L2) <= c).
  { apply C; [apply NoDup_ListNoDup, List.NoDup_filter, NoDup_ListNoDup, N|intros a Ia; apply filter_In in Ia; tauto|].
    apply List.Forall_forall. intros a Ia. apply filter_In in Ia as [_ Ia]. apply negb_true_iff, bool_decide_eq_false in Ia. exact Ia. }
  rewrite E. lia.
Qed.
Lemma NoDup_map_list {A B} (f : A -> B) (l : list A) : (forall x y, In x l -> In y l -> f x = f y -> x = y) -> NoDup l -> NoDup (map f l).
Proof. intros F N. apply NoDup_ListNoDup. apply Field.NoDup_map_in; [exact F|apply NoDup_ListNoDup, N]. Qed.
Lemma count_pairs {A B} `{EqDecision A} (L : list (A * B)) (b c : Z) : 0 <= c -> NoDup L ->
  (forall l, NoDup l -> incl l (map fst L) -> Z.of_nat (length l) <= b) ->
  (forall a l, In a (map fst L) -> NoDup l -> Forall (fun y => In (a, y) L) l -> Z.of_nat (length l) <= c) -> Z.of_nat (length L) <= b * c.
Proof.
  intros C0 N HA HB. set (I := remove_dups (map fst L)).
  assert (M : forall x, In x I <-> In x (map fst L)).
  { intros x. unfold I. rewrite <- !elem_of_list_In. apply elem_of_remove_dups. }
  assert (HI : Z.of_nat (length I) <= b). { apply HA; [apply NoDup_remove_dups|]. intros x Ix. apply M, Ix. }
  transitivity (Z.of_nat (length I) * c); [|apply Z.mul_le_mono_nonneg_r; assumption].
  assert (DD : forall (a : A) (p : A * B), Decision (fst p = a)) by (intros; apply EqDecision0).
  apply (@count_union A (A * B) (fun a p => fst p = a) DD); [|exact N|].
  - intros a Ia L' N' I' F. rewrite <- (map_length snd). apply (HB a); [apply M, Ia| |].
    + apply NoDup_map_list; [|exact N']. intros [x1 y1] [x2 y2] H1 H2 E. cbn in E. subst. rewrite List.Forall_forall in F.
      rewrite (F _ H1 : x1 = a), (F _ H2 : x2 = a). reflexivity.
    + apply List.Forall_forall. intros y Iy. apply in_map_iff in Iy as ([x1 y1] & E & H1). cbn in E. subst. rewrite List.Forall_forall in F.
      rewrite <- (F _ H1 : x1 = a). apply I', H1.
  - apply List.Forall_forall. intros p Ip. exists (fst p). split; [apply M, in_map, Ip|reflexivity].
Qed.
Lemma count_below (n : Z) (L : list Z) : 0 <= n -> NoDup L -> Forall (fun x => 0 <= x < n) L -> Z.of_nat (length L) <= n.
Proof.
  intros Hn N F. assert (H : (length L <= length (map Z.of_nat (seq 0 (Z.to_nat n))))%nat).
  { apply NoDup_incl_length; [apply NoDup_ListNoDup, N|]. intros x Ix. rewrite List.Forall_forall in F. specialize (F x Ix).
    apply in_map_iff. exists (Z.to_nat x). split; [apply Z2Nat.id; lia|]. apply in_seq. lia. }
  rewrite map_length, seq_length in H. lia.
Qed.
Lemma P_nonneg : 0 <= P. Proof. unfold P. lia. Qed.
Lemma P_pos : 0 < P. Proof. unfold P. lia. Qed.
Lemma count_canon (L : list Z) : NoDup L -> Forall canon L -> Z.of_nat (length L) <= P.
Proof. apply count_below, P_nonneg. Qed.
Lemma distinct_canon L : NoDup L -> Forall canon L -> distinct L.
Proof.
  intros N F. unfold distinct. apply NoDup_map_list; [|exact N]. intros x y Ix Iy. rewrite List.Forall_forall in F.
  pose proof (F x Ix) as Hx. pose proof (F y Iy) as Hy. unfold canon in *. rewrite !Z.mod_small by assumption. auto.
Qed.
(** at most one field element is the opposite of another *)
Lemma count_root x (L : list Z) : NoDup L -> Forall canon L -> Forall (fun g => fzero (x + g)) L -> Z.of_nat (length L) <= 1.
Proof.
  intros N F R. pose proof (roots_bound_coef [x; 1] L (distinct_canon L N F)) as B. cbn [length] in B.
  enough (length L < 2)%nat by lia. apply B.
  - revert R. apply List.Forall_impl. intros g. cbn. replace ((0 * g + 1) * g + x) with (x + g) by ring. auto.
  - intros Z0. inversion Z0 as [|? ? _ Z1]; subst. inversion Z1 as [|? ? Z2 _]; subst. revert Z2. unfold fzero, P. lia.
Qed.

#[global] Instance challenge_eq_dec : EqDecision challenge.
Proof. solve_decision. Defined.
(** from one challenge to a list of challenges *)
Lemma at_most_lists (Q : challenge -> Prop) (n : Z) : 0 <= n ->
  (forall L : list challenge, NoDup L -> Forall (fun c => field_challenge c /\ Q c) L -> Z.of_nat (length L) <= n) ->
  forall k, at_most (n ^ Z.of_nat k) k Q.
Proof.
  intros Hn B k. induction k as [|k IH]; intros L N F.
  - destruct L as [|a L]; [cbn; lia|]. destruct L as [|b L]; [cbn; lia|]. exfalso.
    inversion F as [|? ? [F1 _] F']; subst. inversion F' as [|? ? [F2 _] _]; subst. destruct a; [|discriminate]. destruct b; [|discriminate].
    inversion N as [|? ? M _]; subst. apply M. left.
  - rewrite Nat2Z.inj_succ, Z.pow_succ_r by lia.
    set (hd0 := fun cs : list challenge => match cs with c :: _ => c | [] => mkChallenge 0 0 end).
    set (L2 := map (fun cs => (hd0 cs, tl cs)) L).
    assert (EL : length L = length L2) by (unfold L2; rewrite map_length; reflexivity). rewrite EL.
    rewrite List.Forall_forall in F.
    assert (M : forall c cs, In (c, cs) L2 <-> In (c :: cs) L).
    { intros c cs. unfold L2. rewrite in_map_iff. split.
      - intros (l & E & I). destruct (F l I) as [Len _]. destruct l as [|c' l]; [discriminate|]. cbn in E. injection E as -> ->. exact I.
      - intros I. exists (c :: cs). split; [reflexivity|exact I]. }
    apply count_pairs.
    + apply Z.pow_nonneg, Hn.
    + unfold L2. apply NoDup_map_list; [|exact N]. intros x y Ix Iy E. destruct (F x Ix) as [Lx _]. destruct (F y Iy) as [Ly _].
      destruct x as [|c x]; [discriminate|]. destruct y as [|d y]; [discriminate|]. cbn in E. injection E as -> ->. reflexivity.
    + intros l Nl Il. apply B; [exact Nl|]. apply List.Forall_forall. intros c Ic. apply Il, in_map_iff in Ic as ([c' cs] & E & I). cbn in E. subst c'.
      apply M in I. destruct (F _ I) as [_ G]. inversion G; assumption.
    + intros c l _ Nl Fl. apply IH; [exact Nl|]. revert Fl. apply List.Forall_impl. intros cs I. apply M in I. destruct (F _ I) as [Len G].
      inversion G; subst. split; [cbn in Len; lia|assumption].
Qed.
