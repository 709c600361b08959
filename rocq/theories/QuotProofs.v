(** Proofs about quotients. *)
From mathcomp Require Import all_ssreflect all_algebra.
From Verif Require Import QuotModel QuotSpec.
Import GRing.Theory.
Local Open Scope ring_scope.
Set Implicit Arguments.
Unset Strict Implicit.

Section Proofs.
  Variable F : fieldType.
  Variables (n : nat) (g : F).
  Hypothesis Hg : n.-primitive_root g.
  Hypothesis Hn : (n%:R : F) != 0.

  Lemma n_gt0 : (0 < n)%N. Proof. exact: prim_order_gt0 Hg. Qed.
  Lemma g_n : g ^+ n = 1. Proof. exact: prim_expr_order Hg. Qed.
  Lemma g_neq0 : g != 0.
  Proof. apply/eqP => g0; have := g_n; rewrite g0 expr0n (gtn_eqF n_gt0) => /eqP. by rewrite eq_sym oner_eq0. Qed.
  Lemma gi_n i : (g ^+ i) ^+ n = 1. Proof. by rewrite exprAC g_n expr1n. Qed.

  Section Table.
    Variable p : nat -> {poly F}.
    Hypothesis Hp : forall j, (size (p j) <= n)%N.
    Variable cs : seq (constraint F).

    Definition gX : {poly F} := g *: 'X.
    Definition E (e : cexpr F) : {poly F} := ceval polyC p (fun j => p j \Po gX) e.
    Lemma gX_horner (q : {poly F}) x : (q \Po gX).[x] = q.[g * x].
    Proof. by rewrite horner_comp /gX hornerZ hornerX. Qed.
    Lemma E_horner e x : (E e).[x] = ceval id (fun j => (p j).[x]) (fun j => (p j).[g * x]) e.
    Proof.
      elim: e => [c|j|j|a IHa b IHb|a IHa b IHb|a IHa b IHb] /=; rewrite /E /=.
      - by rewrite hornerC.
      - by [].
      - by rewrite gX_horner.
      - by rewrite hornerD -IHa -IHb.
      - by rewrite hornerD hornerN -IHa -IHb.
      - by rewrite hornerM -IHa -IHb.
    Qed.
    Definition L0 : {poly F} := n%:R^-1 *: \sum_(i < n) 'X^i.
    Lemma L0_mul x : (n%:R * (x - 1)) * L0.[x] = x ^+ n - 1.
    Proof.
      rewrite /L0 hornerZ horner_sum subrX1.
      have -> : \sum_(i < n) ('X^i : {poly F}).[x] = \sum_(i < n) x ^+ i by apply: eq_bigr => i _; rewrite hornerXn.
      rewrite mulrACA mulfV // mul1r //.
    Qed.
    Lemma L0_one : L0.[1] = 1.
    Proof.
      rewrite /L0 hornerZ horner_sum.
      have -> : \sum_(i < n) ('X^i : {poly F}).[1] = n%:R.
        rewrite (eq_bigr (fun=> 1)) => [|i _]; last by rewrite hornerXn expr1n.
        by rewrite sumr_const card_ord.
      by rewrite mulVf.
    Qed.
    Lemma L0_other x : x != 1 -> x ^+ n = 1 -> L0.[x] = 0.
    Proof.
      move=> x1 xn; apply/eqP. have := L0_mul x. rewrite xn subrr => /eqP. rewrite !mulf_eq0 (negbTE Hn) subr_eq0 (negbTE x1) /=. by [].
    Qed.
    Definition filterp (k : kind) : {poly F} :=
      match k with Always => 1 | Transition => 'X - (g^-1)%:P | FirstRow => L0 | LastRow => L0 \Po gX end.
    Lemma filterp_point k x : n%:R * (x - 1) != 0 -> n%:R * (g * x - 1) != 0 ->
      (filterp k).[x] = filter_by (x - g^-1) (eval_l_0 n x) (eval_l_last n g x) k.
    Proof.
      move=> h1 h2; case: k => /=.
      - by rewrite hornerC.
      - by rewrite hornerXsubC.
      - by rewrite /eval_l_0 -L0_mul mulrAC mulfV // mul1r.
      - rewrite gX_horner /eval_l_last.
        have -> : x ^+ n - 1 = (n%:R * (g * x - 1)) * L0.[g * x] by rewrite L0_mul exprMn g_n mul1r.
        by rewrite mulrAC mulfV // mul1r.
    Qed.
    Lemma gi_one i : (i < n)%N -> (g ^+ i == 1) = (i == 0%N).
    Proof. move=> Hi. rewrite -(expr0 g) (eq_prim_root_expr Hg) mod0n modn_small //. Qed.
    Lemma gS_one i : (i < n)%N -> (g * g ^+ i == 1) = (i.+1 == n).
    Proof.
      move=> Hi. rewrite -exprS -(expr0 g) (eq_prim_root_expr Hg) mod0n.
      case: (ltngtP i.+1 n) => H.
      - by rewrite modn_small.
      - by move: Hi; rewrite leqNgt ltnS -ltnS H.
      - by rewrite H modnn.
    Qed.
    (** On the rows, a filter is zero exactly where its constraint does not apply *)
    Lemma filterp_row k i : (i < n)%N -> ((filterp k).[g ^+ i] != 0) = applies n k i.
    Proof.
      move=> Hi; case: k => /=.
      - by rewrite hornerC oner_eq0.
      - rewrite hornerXsubC subr_eq0. congr (~~ _). rewrite -(gS_one Hi).
        by rewrite -(inj_eq (mulfI g_neq0)) mulfV ?g_neq0.
      - rewrite -(gi_one Hi). case: (altP (g ^+ i =P 1)) => [->|H]; first by rewrite L0_one oner_eq0.
        by rewrite (L0_other H (gi_n i)) eqxx.
      - rewrite gX_horner -(gS_one Hi). case: (altP (g * g ^+ i =P 1)) => [->|H]; first by rewrite L0_one oner_eq0.
        rewrite (L0_other H) ?eqxx //. by rewrite exprMn g_n gi_n mul1r.
    Qed.
    Lemma row_next i : (fun j => (p j).[g * g ^+ i]) =1 row g p (i.+1 %% n)%N.
    Proof. move=> j. by rewrite /row (prim_expr_mod Hg) exprS. Qed.
    Lemma ceval_ext (l l' m m' : nat -> F) e : l =1 l' -> m =1 m' -> ceval id l m e = value l' m' e.
    Proof. by move=> H H'; elim: e => //= a -> b ->. Qed.
    Definition term (c : constraint F) : {poly F} := filterp c.1 * E c.2.
    Lemma term_row c i : (i < n)%N -> ((term c).[g ^+ i] == 0) = holds_at n (row g p) c i.
    Proof.
      move=> Hi. rewrite /term hornerM mulf_eq0 /holds_at -(filterp_row _ Hi) implybE negbK. congr (_ || _).
      by rewrite E_horner (ceval_ext c.2 (frefl _) (row_next i)).
    Qed.

    Lemma accumulate_horner (alpha : F) (vs : seq F) : accumulate alpha vs = (Poly (rev vs)).[alpha].
    Proof. by rewrite /accumulate horner_Poly -{1}(revK vs) foldl_rev; elim: (rev vs) => //= v s <-. Qed.
    Lemma reduce_horner (ts : seq F) (x : F) : reduce_with_powers ts x = (Poly ts).[x].
    Proof. by rewrite horner_Poly /reduce_with_powers; elim: ts => //= t ts ->. Qed.

    Definition V (alpha : F) : {poly F} := foldl (fun acc v => acc * alpha%:P + v) 0 [seq term c | c <- cs].
    Lemma foldl_horner alpha (vs : seq {poly F}) acc x :
      (foldl (fun acc v => acc * alpha%:P + v) acc vs).[x] = foldl (fun acc v => acc * alpha + v) acc.[x] [seq v.[x] | v : {poly F} <- vs].
    Proof. by elim: vs acc => //= v vs IH acc; rewrite IH hornerD hornerM hornerC. Qed.
    Lemma V_horner alpha x : (V alpha).[x] = accumulate alpha [seq (term c).[x] | c <- cs].
    Proof. by rewrite /V foldl_horner horner0 -map_comp. Qed.
    Definition T (ts : seq {poly F}) : {poly F} := foldr (fun t acc => acc * 'X^n + t) 0 ts.
    Lemma T_horner ts x : (T ts).[x] = reduce_with_powers [seq t.[x] | t : {poly F} <- ts] (x ^+ n).
    Proof. by elim: ts => [|t ts IH] /=; rewrite /reduce_with_powers /= ?horner0 // hornerD hornerM hornerXn IH. Qed.

    (** The verifier compares two polynomials at the challenge point. *)
    Lemma accepts_root alpha zeta ts : accepts n g cs p alpha zeta ts =
      [&& n%:R * (zeta - 1) != 0, n%:R * (g * zeta - 1) != 0 & root (V alpha - ('X^n - 1) * T ts) zeta].
    Proof.
      rewrite /accepts /verify_quotient. case: (boolP (n%:R * (zeta - 1) != 0)) => //= h1. case: (boolP (n%:R * (g * zeta - 1) != 0)) => //= h2.
      rewrite rootE hornerD hornerN subr_eq0 hornerM T_horner hornerD hornerN hornerXn hornerC V_horner. congr (accumulate _ _ == _).
      apply: eq_map => c. by rewrite /term hornerM E_horner filterp_point.
    Qed.

    (** Sizes *)
    Lemma size_E e : (size (E e) <= (cdeg e * n.-1).+1)%N.
    Proof.
      elim: e => [c|j|j|a IHa b IHb|a IHa b IHb|a IHa b IHb]; rewrite /E /= -/(E _).
      - by rewrite mul0n size_polyC_leq1.
      - by rewrite mul1n prednK ?n_gt0.
      - rewrite mul1n. apply: leq_trans (size_comp_poly_leq _ _) _. rewrite ltnS.
        have Hs : ((size gX).-1 <= 1)%N by rewrite /gX; have := size_scale_leq g ('X : {poly F}); rewrite size_polyX; case: (size _) => [|[|[|]]].
        apply: leq_trans (leq_mul (leqnn _) Hs) _. rewrite muln1. by rewrite -!subn1 leq_sub2r.
      - apply: leq_trans (size_add _ _) _. rewrite geq_max. apply/andP; split.
          by apply: leq_trans IHa _; rewrite ltnS leq_mul2r leq_maxl orbT.
        by apply: leq_trans IHb _; rewrite ltnS leq_mul2r leq_maxr orbT.
      - apply: leq_trans (size_add _ _) _. rewrite size_opp geq_max. apply/andP; split.
          by apply: leq_trans IHa _; rewrite ltnS leq_mul2r leq_maxl orbT.
        by apply: leq_trans IHb _; rewrite ltnS leq_mul2r leq_maxr orbT.
      - apply: leq_trans (size_mul_leq _ _) _. rewrite mulnDl.
        have := leq_add IHa IHb. rewrite addSn addnS. by case: (_ + _)%N.
    Qed.
    Lemma size_L0 : (size L0 <= n)%N.
    Proof.
      rewrite /L0. apply: leq_trans (size_scale_leq _ _) _. apply: leq_trans (size_sum _ _ _) _. apply/bigmax_leqP => i _. by rewrite size_polyXn.
    Qed.
    Definition extra (k : kind) : nat := match k with Always => 0 | Transition => 1 | _ => n.-1 end.
    Lemma size_filterp k : (size (filterp k) <= (extra k).+1)%N.
    Proof.
      case: k => /=.
      - by rewrite size_poly1.
      - by rewrite size_XsubC.
      - by rewrite prednK ?n_gt0 // size_L0.
      - apply: leq_trans (size_comp_poly_leq _ _) _. rewrite ltnS.
        have Hs : ((size gX).-1 <= 1)%N by rewrite /gX; have := size_scale_leq g ('X : {poly F}); rewrite size_polyX; case: (size _) => [|[|[|]]].
        apply: leq_trans (leq_mul (leqnn _) Hs) _. rewrite muln1. by rewrite -!subn1 leq_sub2r // size_L0.
    Qed.
    Lemma size_term c : (size (term c) <= (cdeg c.2 * n.-1 + extra c.1).+1)%N.
    Proof.
      rewrite /term. apply: leq_trans (size_mul_leq _ _) _.
      rewrite -subn1 leq_subLR. apply: leq_trans (leq_add (size_filterp c.1) (size_E c.2)) _. by rewrite addSn addnS add1n addnC.
    Qed.
    Lemma size_V alpha b : (forall c, List.In c cs -> (size (term c) <= b)%N) -> (size (V alpha) <= b)%N.
    Proof.
      rewrite /V => H. have : (size (0%R : {poly F}) <= b)%N by rewrite size_poly0.
      elim: cs (0 : {poly F}) H => //= c l IH acc H Hacc. apply: IH => [d Hd|]; first by apply: H; right.
      apply: leq_trans (size_add _ _) _. rewrite geq_max H; last by left. rewrite andbT.
      rewrite mulrC mul_polyC. exact: leq_trans (size_scale_leq _ _) Hacc.
    Qed.
    Lemma size_T ts : all (fun t : {poly F} => (size t <= n)%N) ts -> (size (T ts) <= size ts * n)%N.
    Proof.
      elim: ts => [|t ts IH] /=; first by rewrite size_poly0.
      case/andP => Ht /IH Hts. apply: leq_trans (size_add _ _) _. rewrite geq_max. apply/andP; split.
        apply: leq_trans (size_mul_leq _ _) _. rewrite size_polyXn addnS /= mulSn addnC leq_add2l //.
      by rewrite mulSn; apply: leq_trans Ht (leq_addr _ _).
    Qed.
    Lemma degree_max c : List.In c cs -> (cdeg c.2 <= degree cs)%N.
    Proof. elim: cs => [|d l IH] /=; first by []. case=> [->|/IH H]; rewrite leq_max; first by rewrite leqnn. by rewrite H orbT. Qed.
    Lemma extra_n k : (extra k <= n)%N.
    Proof. by case: k => //=; rewrite ?n_gt0 ?leq_pred. Qed.
    Lemma size_W alpha ts : all (fun t : {poly F} => (size t <= n)%N) ts ->
      (size (V alpha - ('X^n - 1) * T ts)%R <= (n * (maxn (size ts) (degree cs)).+1).+1)%N.
    Proof.
      move=> Hts. apply: leq_trans (size_add _ _) _. rewrite size_opp geq_max. apply/andP; split.
      - apply: size_V => c Hc. apply: leq_trans (size_term c) _. rewrite ltnS mulnS addnC. apply: leq_add; first exact: extra_n.
        rewrite mulnC. apply: leq_mul; first exact: leq_pred. by apply: leq_trans (degree_max Hc) _; rewrite leq_maxr.
      - apply: leq_trans (size_mul_leq _ _) _. rewrite size_Xn_sub_1 ?n_gt0 // addSn /= mulnS ltnW // ltnS leq_add2l.
        apply: leq_trans (size_T Hts) _. by rewrite mulnC leq_mul2l leq_maxl orbT.
    Qed.
    Lemma Zh_row i : (('X^n - 1 : {poly F})).[g ^+ i] = 0.
    Proof. by rewrite hornerD hornerN hornerXn hornerC gi_n subrr. Qed.

    (** ** Soundness *)
    Lemma sound c i alphas : List.In c cs -> (i < n)%N -> ~~ holds_at n (row g p) c i -> uniq alphas -> (size cs <= size alphas)%N ->
      exists2 alpha, alpha \in alphas & forall ts, all (fun t : {poly F} => (size t <= n)%N) ts -> forall zetas, uniq zetas -> all (fun zeta => accepts n g cs p alpha zeta ts) zetas ->
        (size zetas <= n * (maxn (size ts) (degree cs)).+1)%N.
    Proof.
      move=> Hc Hi Hv Ha Hsz. pose Q := Poly (rev [seq (term c).[g ^+ i] | c <- cs]).
      have HQ : Q != 0.
        apply/eqP => HQ0. move: Hv. rewrite -(term_row _ Hi). case/negP. apply/eqP.
        have Hall : forall m, (rev [seq (term c).[g ^+ i] | c <- cs])`_m = 0 by move=> m; rewrite -coef_Poly -/Q HQ0 coef0.
        have : all (fun x => x == 0) (rev [seq (term c).[g ^+ i] | c <- cs]).
          by apply/(all_nthP 0) => m _; rewrite Hall.
        rewrite all_rev. move: Hc. elim: cs => //= d l IH [->|H] /andP[/eqP H1 H2] //. exact: IH.
      have Hex : has (fun alpha => ~~ root Q alpha) alphas.
        apply: contraT. rewrite -all_predC => Hall.
        have Hr : all (root Q) alphas by apply: sub_all Hall => x /=; rewrite negbK.
        have := max_poly_roots HQ Hr Ha. rewrite ltnNge. case/negP. apply: leq_trans (size_Poly _) _. by rewrite size_rev size_map.
      case/hasP: Hex => alpha Hin Hroot. exists alpha => // ts Hts zetas Hu Hacc.
      have HW : V alpha - ('X^n - 1) * T ts != 0.
        apply/eqP => HW0. move: Hroot. rewrite rootE /Q -accumulate_horner -V_horner. case/negP.
        have := f_equal (fun q : {poly F} => q.[g ^+ i]) HW0. rewrite hornerD hornerN hornerM Zh_row mul0r subr0 horner0 => ->. exact: eqxx.
      have Hr : all (root (V alpha - ('X^n - 1) * T ts)) zetas by apply: sub_all Hacc => z; rewrite accepts_root => /and3P[].
      have := max_poly_roots HW Hr Hu. move=> H. by have := leq_trans H (size_W alpha Hts).
    Qed.

    (** ** Completeness *)
    Fixpoint chunk (f : nat) (q : {poly F}) : seq {poly F} :=
      match f with 0 => [::] | f'.+1 => (\poly_(i < n) q`_i) :: chunk f' (\poly_(i < size q - n) q`_(i + n)) end.
    Lemma take_drop (q : {poly F}) : q = (\poly_(i < size q - n) q`_(i + n)) * 'X^n + \poly_(i < n) q`_i.
    Proof.
      apply/polyP => i. rewrite coefD coefMXn !coef_poly. case: (ltnP i n) => Hi; first by rewrite add0r.
      rewrite addr0 subnK //. case: ifP => // /negbT. rewrite -leqNgt => H. rewrite nth_default //. by rewrite leq_subLR in H; rewrite subnKC in H.
    Qed.
    Lemma chunk_T f (q : {poly F}) : (size q <= f * n)%N -> [/\ size (chunk f q) = f, all (fun t : {poly F} => (size t <= n)%N) (chunk f q) & T (chunk f q) = q].
    Proof.
      elim: f q => [|f IH] q; first by rewrite mul0n leqn0 size_poly_eq0 => /eqP ->.
      move=> Hq. have [|H1 H2 H3] := IH (\poly_(i < size q - n) q`_(i + n)).
        apply: leq_trans (size_poly _ _) _. by rewrite leq_subLR -mulSn.
      split=> /=; [by rewrite H1|by rewrite H2 andbT size_poly|by rewrite H3 -take_drop].
    Qed.
    Lemma divisible f alpha : (0 < f)%N -> (forall c, List.In c cs -> (constraint_degree c <= f.+1)%N) -> satisfied n (row g p) cs ->
      exists2 q : {poly F}, (size q <= f * n)%N & V alpha = ('X^n - 1) * q.
    Proof.
      move=> Hf Hd Hs.
      have HV : (size (V alpha) <= f.+1 * n)%N.
        apply: size_V => c Hc. apply: leq_trans (size_term c) _. have := Hd c Hc. rewrite /constraint_degree.
        have Hn0 := n_gt0. case: c.1 => /= H.
        - rewrite addn0. apply: leq_ltn_trans (_ : (f.+1 * n.-1 < _)%N); first by rewrite leq_mul2r H orbT. by rewrite ltn_mul2l /= prednK.
        - apply: leq_ltn_trans (_ : (f.+1 * n.-1 + 1 < _)%N); first by rewrite leq_add2r leq_mul2r H orbT.
          rewrite -{2}(prednK Hn0) mulnS [X in (_ < X)%N]addnC ltn_add2l. by [].
        - rewrite -mulSnr. apply: leq_ltn_trans (_ : (f.+1 * n.-1 < _)%N); first by rewrite leq_mul2r H orbT. by rewrite ltn_mul2l /= prednK.
        - rewrite -mulSnr. apply: leq_ltn_trans (_ : (f.+1 * n.-1 < _)%N); first by rewrite leq_mul2r H orbT. by rewrite ltn_mul2l /= prednK.
      have Hdv : ('X^n - 1 : {poly F}) %| V alpha.
        rewrite -(factor_Xn_sub_1 Hg).
        have -> : \prod_(0 <= i < n) ('X - (g ^+ i)%:P) = \prod_(z <- [seq g ^+ i | i <- index_iota 0 n]) ('X - z%:P) :> {poly F} by rewrite big_map.
        apply: uniq_roots_dvdp.
        - apply/allP => z /mapP[i]. rewrite mem_index_iota => /andP[_ Hi] ->. rewrite rootE V_horner.
          rewrite /accumulate. have : forall c, List.In c cs -> (term c).[g ^+ i] = 0 by move=> c Hc; apply/eqP; rewrite (term_row _ Hi); exact: Hs.
          elim: cs => //= c l IH H. rewrite mul0r add0r H; last by left. apply: IH => d Hd'. by apply: H; right.
        - rewrite uniq_rootsE map_inj_in_uniq ?iota_uniq // => i j. rewrite !mem_index_iota => /andP[_ Hi] /andP[_ Hj] /eqP.
          by rewrite (eq_prim_root_expr Hg) !modn_small // => /eqP.
      exists (V alpha %/ ('X^n - 1)); last by rewrite mulrC divpK.
        rewrite size_divp ?size_Xn_sub_1 ?n_gt0 -?size_poly_eq0 ?size_Xn_sub_1 ?n_gt0 //=. by rewrite leq_subLR -mulSn.
    Qed.
    Lemma complete f alpha : (0 < f)%N -> (forall c, List.In c cs -> (constraint_degree c <= f.+1)%N) -> satisfied n (row g p) cs ->
      exists ts, [/\ size ts = f, all (fun t : {poly F} => (size t <= n)%N) ts & forall zeta, n%:R * (zeta - 1) != 0 -> n%:R * (g * zeta - 1) != 0 -> accepts n g cs p alpha zeta ts].
    Proof.
      move=> Hf Hd Hs. have [q Hq HV] := divisible alpha Hf Hd Hs. have [H1 H2 H3] := chunk_T Hq.
      exists (chunk f q). split=> // zeta h1 h2. by rewrite accepts_root h1 h2 H3 HV subrr root0.
    Qed.
  End Table.
End Proofs.
