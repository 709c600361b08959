(** Proofs about the prover's quotients. *)
From Coq Require PeanoNat.
From mathcomp Require Import all_ssreflect all_algebra.
From Verif Require Import QuotModel QuotSpec QuotProofs CosetModel.
Import GRing.Theory.
Local Open Scope ring_scope.
Set Implicit Arguments.
Unset Strict Implicit.

Section Fft.
  Variable F : fieldType.
  Variables (N : nat) (w : F).
  Hypothesis Hw : N.-primitive_root w.
  Hypothesis HN : (N%:R : F) != 0.
  Lemma w_neq0 : w != 0. Proof. exact: g_neq0 Hw. Qed.
  Lemma geometric l m : (l < N)%N -> (m < N)%N -> \sum_(i < N) w ^+ (i * l) * w^-1 ^+ (i * m) = if l == m then N%:R else 0.
  Proof.
    move=> Hl Hm. pose z := w ^+ l / w ^+ m.
    have E : forall i : 'I_N, true -> w ^+ (i * l) * w^-1 ^+ (i * m) = z ^+ i.
      by move=> i _; rewrite /z expr_div_n -!exprM exprVn ![(_ * i)%N]mulnC.
    rewrite (eq_bigr _ E). case: (altP eqP) => [Elm|Hne].
    - have -> : z = 1 by rewrite /z Elm mulfV // expf_neq0 // w_neq0.
      rewrite (eq_bigr (fun=> 1)) => [|i _]; last by rewrite expr1n. by rewrite sumr_const card_ord.
    - have zN : z ^+ N = 1 by rewrite /z expr_div_n -!exprM mulnC exprM (prim_expr_order Hw) expr1n mulnC exprM (prim_expr_order Hw) expr1n divr1.
      have z1 : z != 1.
        apply: contra Hne. rewrite /z => /eqP H. rewrite -(modn_small Hl) -(modn_small Hm) -[X in (X == _)]/(l %% N)%N -(eq_prim_root_expr Hw).
        by rewrite -(mulfVK (expf_neq0 m w_neq0) (w ^+ l)) H mul1r.
      have := subrX1 z N. rewrite zN subrr => /esym/eqP. by rewrite mulf_eq0 subr_eq0 (negbTE z1) /= => /eqP.
  Qed.
  Lemma ifft_eval (q : {poly F}) v : (size q <= N)%N -> (forall i, (i < N)%N -> v i = q.[w ^+ i]) -> ifft N w v = q.
  Proof.
    move=> Hq Hv. apply/polyP => m. rewrite coef_poly. case: ltnP => Hm; last by rewrite nth_default // (leq_trans Hq).
    have -> : \sum_(i < N) v i * w^-1 ^+ (i * m) = \sum_(l < N) q`_l * \sum_(i < N) w ^+ (i * l) * w^-1 ^+ (i * m).
      rewrite (eq_bigr (fun i : 'I_N => \sum_(l < N) q`_l * (w ^+ (i * l) * w^-1 ^+ (i * m)))) => [|i _].
        rewrite exchange_big. by apply: eq_bigr => l _; rewrite big_distrr.
      rewrite Hv // (horner_coef_wide _ Hq) big_distrl. by apply: eq_bigr => l _; rewrite -exprM mulrA.
    rewrite (bigD1 (Ordinal Hm)) //= geometric // eqxx big1 => [|l Hl]; last first.
      rewrite geometric // ifN ?mulr0 //. 
    by rewrite addr0 mulrCA mulVf // mulr1.
  Qed.
  Lemma coset_ifft_eval s (q : {poly F}) v : s != 0 -> (size q <= N)%N -> (forall i, (i < N)%N -> v i = q.[s * w ^+ i]) -> coset_ifft N w s v = q.
  Proof.
    move=> Hs Hq Hv. have E : ifft N w v = \poly_(m < N) (q`_m * s ^+ m).
      apply: ifft_eval; first exact: size_poly. move=> i Hi. rewrite Hv // (horner_coef_wide _ Hq) horner_poly.
      by apply: eq_bigr => l _; rewrite exprMn mulrA.
    rewrite /coset_ifft E. apply/polyP => m. rewrite coef_poly. case: ltnP => Hm; last by rewrite nth_default // (leq_trans Hq).
    by rewrite coef_poly Hm -mulrA -exprMn mulfV // expr1n mulr1.
  Qed.
End Fft.

Lemma pow_expn a : PeanoNat.Nat.pow 2 a = (2 ^ a)%N.
Proof. by elim: a => // a IH; rewrite expnS -IH. Qed.
Lemma log2_ceil_bound f : (0 < f)%N -> (f <= PeanoNat.Nat.pow 2 (log2_ceil f))%N.
Proof.
  move=> Hf. rewrite /log2_ceil. case: f Hf => [//|[|f]] _; first by [].
  have [_ H] := PeanoNat.Nat.log2_up_spec f.+2 ltac:(by apply/ltP). by apply/leP.
Qed.
Lemma log2_ceil_rate f r : (f <= PeanoNat.Nat.pow 2 r)%N -> (log2_ceil f <= r)%N.
Proof. move=> /leP H. apply/leP. rewrite /log2_ceil -(PeanoNat.Nat.log2_up_pow2 r) ; last exact: PeanoNat.Nat.le_0_l. exact: PeanoNat.Nat.log2_up_le_mono. Qed.
Lemma pow_pos a : (0 < PeanoNat.Nat.pow 2 a)%N.
Proof. by rewrite pow_expn expn_gt0. Qed.
Lemma pow_sub a b : (a <= b)%N -> (PeanoNat.Nat.pow 2 a * PeanoNat.Nat.pow 2 (b - a))%N = PeanoNat.Nat.pow 2 b.
Proof. by move=> H; rewrite !pow_expn -expnD subnKC. Qed.

Section Prover.
  Variable F : fieldType.
  Variables (n rate factor : nat) (W s : F) (cs : seq (constraint F)) (p : nat -> {poly F}).
  Let k := PeanoNat.Nat.pow 2 (log2_ceil factor).
  Let step := PeanoNat.Nat.pow 2 (rate - log2_ceil factor).
  Let w := W ^+ step.
  Let g := W ^+ (PeanoNat.Nat.pow 2 rate).
  Hypothesis HW : (n * PeanoNat.Nat.pow 2 rate).-primitive_root W.
  Hypothesis Hrate : (log2_ceil factor <= rate)%N.
  Hypothesis HN : ((n * PeanoNat.Nat.pow 2 rate)%:R : F) != 0.
  Hypothesis Hs0 : s != 0.
  Hypothesis Hs : s ^+ (n * PeanoNat.Nat.pow 2 rate) != 1.
  Hypothesis Hf : (0 < factor)%N.

  Lemma k_step : (k * step)%N = PeanoNat.Nat.pow 2 rate. Proof. exact: pow_sub. Qed.
  Lemma g_w : g = w ^+ k. Proof. by rewrite /g /w -exprM mulnC k_step. Qed.
  Lemma Hg : n.-primitive_root g.
  Proof.
    have H := exp_prim_root HW (PeanoNat.Nat.pow 2 rate). move: H. rewrite -/g.
    have -> : gcdn (PeanoNat.Nat.pow 2 rate) (n * PeanoNat.Nat.pow 2 rate) = PeanoNat.Nat.pow 2 rate by apply/gcdn_idPl; exact: dvdn_mull.
    by rewrite mulnK // pow_pos.
  Qed.
  Lemma Hw : (n * k).-primitive_root w.
  Proof.
    have H := exp_prim_root HW step. move: H. rewrite -/w -k_step mulnA.
    have -> : gcdn step (n * k * step) = step by apply/gcdn_idPl; exact: dvdn_mull.
    by rewrite mulnK // pow_pos.
  Qed.
  Lemma natr_factor a b : ((a * b)%:R : F) != 0 -> (a%:R : F) != 0.
  Proof. by rewrite natrM mulf_eq0 negb_or => /andP[]. Qed.
  Lemma Hn0 : (n%:R : F) != 0. Proof. exact: natr_factor HN. Qed.
  Lemma Hnk0 : ((n * k)%:R : F) != 0. Proof. apply: (@natr_factor _ step). by rewrite -mulnA k_step. Qed.

  Lemma zh_coset i : (s * w ^+ i) ^+ n - 1 != 0.
  Proof.
    rewrite subr_eq0. apply/eqP => H. move: Hs. have -> : (n * PeanoNat.Nat.pow 2 rate)%N = (n * (k * step))%N by rewrite k_step.
    have := f_equal (fun x => x ^+ (k * step)) H. rewrite -exprM expr1n exprMn -exprM.
    have -> : (i * (n * (k * step)))%N = ((n * k) * (i * step))%N by rewrite (mulnA n) mulnCA.
    by rewrite (exprM w) (prim_expr_order Hw) expr1n mulr1 => ->; rewrite eqxx.
  Qed.
  Lemma zh_inverse i : (s ^+ n * (w ^+ n) ^+ (i %% k) - 1)^-1 = ((s * w ^+ i) ^+ n - 1)^-1.
  Proof.
    congr (_ - 1)^-1. rewrite exprMn. congr (_ * _). rewrite -(exprM w n) -(exprM w i) [(i * n)%N]mulnC. apply/eqP. rewrite (eq_prim_root_expr Hw). by rewrite muln_modr modn_mod.
  Qed.
  Lemma lagrange_at k' m v x : (forall i, (i < n)%N -> v i = (filterp n g k').[g ^+ i]) -> m = filterp n g k' -> (size m <= n)%N -> (ifft n g v).[x] = m.[x].
  Proof. move=> Hv -> Hsz. by rewrite (@ifft_eval _ n g Hg Hn0 _ _ Hsz Hv). Qed.
  Lemma size_lagrange k' : k' = FirstRow \/ k' = LastRow -> (size (filterp n g k') <= n)%N.
  Proof. have Hn := n_gt0 Hg. by move=> H; have := size_filterp Hg k'; case: H => ->; rewrite /= prednK. Qed.
  Lemma first_at x : (ifft n g (selector 0)).[x] = (filterp n g FirstRow).[x].
  Proof.
    apply: (@lagrange_at FirstRow) => //; last by apply: size_lagrange; left. move=> i Hi. rewrite /selector -(gi_one Hg Hi) /=.
    case: (altP (g ^+ i =P 1)) => [->|H]; first by rewrite (L0_one Hn0). by rewrite (L0_other Hn0 H (gi_n Hg i)).
  Qed.
  Lemma last_at x : (ifft n g (selector n.-1)).[x] = (filterp n g LastRow).[x].
  Proof.
    apply: (@lagrange_at LastRow) => //; last by apply: size_lagrange; right. move=> i Hi. rewrite /selector /= gX_horner.
    have -> : (i == n.-1) = (i.+1 == n) by rewrite -{2}(prednK (n_gt0 Hg)) eqSS.
    rewrite -(gS_one Hg Hi). case: (altP (g * g ^+ i =P 1)) => [->|H]; first by rewrite (L0_one Hn0).
    rewrite (L0_other Hn0 H) //. by rewrite exprMn (g_n Hg) (gi_n Hg) mul1r.
  Qed.

  Lemma compute_at alpha (q : {poly F}) : (size q <= factor * n)%N -> V n g p cs alpha = ('X^n - 1) * q ->
    compute_quotient_poly n rate factor W s cs p alpha = Some q.
  Proof.
    move=> Hq HV. rewrite /compute_quotient_poly Hrate. congr Some. rewrite -/k -/step -/w -/g.
    apply: (coset_ifft_eval Hw Hnk0 Hs0).
      apply: leq_trans Hq _. by rewrite mulnC leq_mul2l log2_ceil_bound ?orbT.
    move=> i Hi. rewrite zh_inverse.
    set x := s * w ^+ i.
    have -> : accumulate alpha [seq filter_by (x - g^-1) (ifft n g (selector 0)).[x] (ifft n g (selector n.-1)).[x] c.1 *
        ceval id (fun j => (p j).[s * W ^+ (i * step)]) (fun j => (p j).[s * W ^+ ((i + k) %% (n * k) * step)]) c.2 | c <- cs] = (V n g p cs alpha).[x].
      rewrite V_horner. congr (accumulate _ _). apply: eq_map => c. rewrite /term hornerM E_horner. congr (_ * _).
        rewrite first_at last_at. case: c.1 => //=; first by rewrite hornerC. by rewrite hornerXsubC.
      have El : s * W ^+ (i * step) = x by rewrite /x /w -exprM mulnC.
      have En : s * W ^+ ((i + k) %% (n * k) * step) = g * x.
        rewrite [(_ %% _ * _)%N]mulnC exprM -/w (prim_expr_mod Hw) exprD -g_w /x. by rewrite mulrA mulrC.
      by rewrite El En.
    rewrite HV hornerM hornerD hornerN hornerXn hornerC mulrAC mulfV ?mul1r //. exact: zh_coset.
  Qed.
  Lemma chunks_eq f (q : {poly F}) : [seq \poly_(i < n) q`_(m * n + i) | m <- iota 0 f] = chunk n f q.
  Proof.
    elim: f q => //= f IH q. congr (_ :: _).
    rewrite -IH (iotaDl 1 0 f) -map_comp. apply: eq_map => m /=. apply/polyP => i. rewrite !coef_poly. case: ifP => // Hi.
    rewrite mulnDl mul1n -addnA [(n + _)%N]addnC. case: ifP => // /negbT. rewrite -leqNgt leq_subLR addnC => H. by rewrite nth_default.
  Qed.
  Lemma prove_at alpha : (forall c, List.In c cs -> (constraint_degree c <= factor.+1)%N) -> (forall j, (size (p j) <= n)%N) -> satisfied n (row g p) cs ->
    exists2 ts, prove_quotient n rate factor W s cs p alpha = Some ts & [/\ size ts = factor, all (fun t : {poly F} => (size t <= n)%N) ts &
      forall zeta, n%:R * (zeta - 1) != 0 -> n%:R * (g * zeta - 1) != 0 -> accepts n g cs p alpha zeta ts].
  Proof.
    move=> Hd Hp Hsat. have [q Hq HV] := divisible Hg Hn0 Hp alpha Hf Hd Hsat. have [H1 H2 H3] := chunk_T Hq.
    exists (chunk n factor q).
      by rewrite /prove_quotient (compute_at Hq HV) /= /quotient_chunks mulnC Hq chunks_eq.
    split=> // zeta h1 h2. by rewrite (accepts_root Hg Hn0) h1 h2 H3 HV subrr root0.
  Qed.
End Prover.
