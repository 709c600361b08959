(** C89: the circuit that checks the quotients can be satisfied exactly when the verifier accepts them. *)
From mathcomp Require Import all_ssreflect all_algebra.
From Verif Require Import QuotModel QuotSpec QuotProofs QuotCircuit QuotProps.
Import GRing.Theory.
Local Open Scope ring_scope.

Section Proofs.
  Variable F : fieldType.
  Lemma exp_power (x : F) k : exp_power_of_2 x k = x ^+ (2 ^ k).
  Proof. elim: k => [|k IH]; first by rewrite expn0 expr1. by rewrite /exp_power_of_2 iterS -/(exp_power_of_2 x k) IH -exprD expnS mul2n addnn. Qed.
  Lemma reduce_eq (x : F) ts : reduce_circuit x ts = reduce_with_powers ts x.
  Proof. by rewrite /reduce_circuit foldl_rev. Qed.
  Lemma deno_0 k (x : F) : l_0_deno k x = (2 ^ k)%:R * (x - 1).
  Proof. by rewrite /l_0_deno /mul_sub mulrBr mulr1. Qed.
  Lemma consume_eq (zl l0 ll alpha : F) (local next : nat -> F) (cs : seq (constraint F)) acc :
    foldl (consume zl l0 ll alpha) acc [seq (c.1, ceval id local next c.2) | c <- cs] =
    foldl (fun acc v => acc * alpha + v) acc [seq filter_by zl l0 ll c.1 * ceval id local next c.2 | c <- cs].
  Proof.
    elim: cs acc => [//|c cs IH] acc. rewrite /= IH. congr foldl. rewrite /consume /mul_add /=. congr (_ + _).
    by case: c.1; rewrite /= ?mul1r // mulrC.
  Qed.
  Lemma div_iff (y inv : F) : div_constraint y inv = (y != 0) && (inv == y^-1).
  Proof.
    rewrite /div_constraint. case: (altP (y =P 0)) => [->|H] /=; first by rewrite mul0r eq_sym oner_eq0.
    apply/eqP/eqP => [E|->]; last by rewrite mulfV. by rewrite -[inv]mul1r -(mulVf H) -mulrA E mulr1.
  Qed.
  Lemma circuit_eq f k g cs alphas (zeta : F) local next quotient i1 i2 :
    quotients_circuit f k g cs alphas zeta local next quotient i1 i2 =
    [&& i1 == ((2 ^ k)%:R * (zeta - 1))^-1, i2 == ((2 ^ k)%:R * (g * zeta - 1))^-1 & verify_quotients f (2 ^ k) g cs alphas zeta local next quotient].
  Proof.
    rewrite /quotients_circuit /verify_quotients !div_iff deno_0 exp_power /l_last_deno /mul_sub.
    case: (altP (i1 =P ((2 ^ k)%:R * (zeta - 1))^-1)) => [->|_]; last by rewrite !andbF.
    case: (altP (i2 =P ((2 ^ k)%:R * (g * zeta - 1))^-1)) => [->|_]; last by rewrite /= !andbF.
    rewrite !andbT /=. congr [&& _, _ & _]. rewrite !size_map. apply: eq_all => i. congr (_ && _).
    rewrite reduce_eq. congr (nth 0 _ i == _). apply: eq_map => alpha. exact: consume_eq.
  Qed.
End Proofs.

(** For whatever openings and challenges, there are inverses satisfying the circuit if and only if the verifier accepts. *)
Theorem C89_circuit (F : fieldType) (f degree_bits : nat) (g : F) (cs : seq (constraint F)) (alphas : seq F) (zeta : F) (local next : nat -> F) (quotient : seq F) :
  (exists inv_first inv_last, quotients_circuit f degree_bits g cs alphas zeta local next quotient inv_first inv_last) <->
  verify_quotients f (2 ^ degree_bits) g cs alphas zeta local next quotient.
Proof.
  split=> [[i1 [i2]]|H]; first by rewrite circuit_eq => /and3P[].
  exists ((2 ^ degree_bits)%:R * (zeta - 1))^-1, ((2 ^ degree_bits)%:R * (g * zeta - 1))^-1. by rewrite circuit_eq !eqxx.
Qed.
(** The witness is determined. *)
Theorem C89_unique (F : fieldType) (f degree_bits : nat) (g : F) (cs : seq (constraint F)) (alphas : seq F) (zeta : F) (local next : nat -> F) (quotient : seq F) i1 i2 j1 j2 :
  quotients_circuit f degree_bits g cs alphas zeta local next quotient i1 i2 ->
  quotients_circuit f degree_bits g cs alphas zeta local next quotient j1 j2 -> i1 = j1 /\ i2 = j2.
Proof. rewrite !circuit_eq => /and3P[/eqP-> /eqP-> _] /and3P[/eqP-> /eqP-> _]. by []. Qed.

(** All challenges are checked, each with its own piece of the openings: with [f] openings for each of the challenges, the verifier accepts
    exactly when it accepts for every one of them. *)
Theorem C89_every_challenge (F : fieldType) (f n : nat) (g : F) (cs : seq (constraint F)) (alphas : seq F) (zeta : F) (local next : nat -> F) (openings : seq (seq F)) :
  (0 < f)%N -> (0 < size alphas)%N -> size openings = size alphas -> all (fun o => size o == f) openings ->
  verify_quotients f n g cs alphas zeta local next (flatten openings) <->
  forall i, (i < size alphas)%N -> verify_quotient n g cs (nth 0 alphas i) zeta local next (nth [::] openings i).
Proof.
  move=> Hf Ha Hs Ho.
  have Hc : chunks f (flatten openings) = openings.
    have Hsz : forall o : seq (seq F), all (fun o => size o == f) o -> size (flatten o) = (size o * f)%N.
      elim=> [//|x o IH] /= /andP[/eqP Hx /IH Ho']. by rewrite size_cat Ho' Hx mulSn.
    rewrite /chunks (Hsz _ Ho) divnMDl // divn_small ?addn0; last by rewrite prednK.
    apply: (@eq_from_nth _ [::]); rewrite size_map size_iota // => i Hi.
    rewrite (nth_map 0%N) ?size_iota // nth_iota // add0n.
    elim: {Hs Ha} openings i Ho Hi => [//|x o IH] [|i] /= /andP[/eqP Hx Ho] Hi.
      by rewrite mul0n drop0 take_size_cat.
    rewrite mulSn drop_cat Hx ltnNge leq_addr /= addKn. exact: IH.
  rewrite /verify_quotients Hc size_map Hs. split.
  - move=> /and3P[h1 h2 /allP h3] i Hi. rewrite /verify_quotient h1 h2 /=.
    have := h3 i. rewrite mem_iota add0n /= Hi => /(_ isT) /=. by rewrite (nth_map 0).
  - move=> H. have /and3P[h1 h2 _] := H _ Ha. rewrite h1 h2 /=. apply/allP => i. rewrite mem_iota add0n /= => Hi. rewrite Hi /=.
    have /and3P[_ _ h] := H _ Hi. by rewrite (nth_map 0).
Qed.

(** So the recursive verifier is sound too: if a table violates a constraint at a row, then among any [size cs] different challenges there is one
    such that with it among the challenges, whatever quotients are committed for each of them, the circuit can be satisfied at no more than
    n * (max (number of chunks) (degree) + 1) points zeta. *)
Theorem C89_sound (F : fieldType) (f k : nat) (g : F) (cs : seq (constraint F)) (p : nat -> {poly F}) :
  (0 < f)%N -> (2 ^ k).-primitive_root g -> ((2 ^ k)%:R : F) != 0 -> (forall j, (size (p j) <= 2 ^ k)%N) ->
  forall c i, List.In c cs -> (i < 2 ^ k)%N -> holds_at (2 ^ k) (row g p) c i = false ->
  forall candidates : seq F, uniq candidates -> (size cs <= size candidates)%N ->
  exists2 alpha, alpha \in candidates & forall alphas, alpha \in alphas ->
    forall tss : seq (seq {poly F}), size tss = size alphas -> all (fun ts => (size ts == f) && all (fun t : {poly F} => (size t <= 2 ^ k)%N) ts) tss ->
    forall zetas : seq F, uniq zetas ->
      (forall zeta, zeta \in zetas -> exists inv_first inv_last, quotients_circuit f k g cs alphas zeta (fun j => (p j).[zeta]) (fun j => (p j).[g * zeta])
        (flatten [seq [seq t.[zeta] | t : {poly F} <- ts] | ts <- tss]) inv_first inv_last) ->
      (size zetas <= 2 ^ k * (maxn f (degree cs) + 1))%N.
Proof.
  move=> Hf Hg Hn Hp c i Hc Hi Hv candidates Hu Hs. have [alpha Ha H] := C87_sound _ _ _ _ _ Hg Hn Hp c i Hc Hi Hv candidates Hu Hs.
  exists alpha => // alphas Hin tss Hts Hall zetas Hz Hsat.
  have Hj : (index alpha alphas < size tss)%N by rewrite Hts index_mem.
  have := allP Hall _ (mem_nth [::] Hj) => /andP[/eqP Hsz Hdeg].
  rewrite -{}Hsz. apply: (H _ Hdeg _ Hz). apply/allP => zeta /Hsat /C89_circuit.
  have Ha0 : (0 < size alphas)%N by rewrite -Hts; case: (tss) Hj.
  move/(C89_every_challenge _ _ _ _ _ _ _ _ _ _ Hf Ha0); rewrite size_map => /(_ Hts).
  have Ho : all (fun o => size o == f) [seq [seq t.[zeta] | t : {poly F} <- ts] | ts <- tss].
    apply/allP => o /mapP[ts Hm ->]. rewrite size_map. by case/andP: (allP Hall _ Hm).
  move/(_ Ho (index alpha alphas)); rewrite index_mem => /(_ Hin). by rewrite nth_index // (nth_map [::]).
Qed.

(** And complete: if a table satisfies its constraints and their degrees fit, then for all challenges there are quotients with which the circuit can
    be satisfied at every point where it does not divide by zero. *)
Theorem C89_complete (F : fieldType) (f k : nat) (g : F) (cs : seq (constraint F)) (p : nat -> {poly F}) :
  (0 < f)%N -> (2 ^ k).-primitive_root g -> ((2 ^ k)%:R : F) != 0 -> (forall j, (size (p j) <= 2 ^ k)%N) ->
  (forall c, List.In c cs -> (constraint_degree c <= f + 1)%N) -> satisfied (2 ^ k) (row g p) cs ->
  forall alphas : seq F, (0 < size alphas)%N ->
  exists tss : seq (seq {poly F}), size tss = size alphas /\ all (fun ts => (size ts == f) && all (fun t : {poly F} => (size t <= 2 ^ k)%N) ts) tss /\
    forall zeta, zeta != 1 -> g * zeta != 1 ->
      exists inv_first inv_last, quotients_circuit f k g cs alphas zeta (fun j => (p j).[zeta]) (fun j => (p j).[g * zeta])
        (flatten [seq [seq t.[zeta] | t : {poly F} <- ts] | ts <- tss]) inv_first inv_last.
Proof.
  move=> Hf Hg Hn Hp Hd Hsat alphas Ha.
  have [tss [H1 H2 H3]] : exists tss : seq (seq {poly F}), [/\ size tss = size alphas,
      all (fun ts => (size ts == f) && all (fun t : {poly F} => (size t <= 2 ^ k)%N) ts) tss &
      forall i, (i < size alphas)%N -> forall zeta, zeta != 1 -> g * zeta != 1 -> accepts (2 ^ k) g cs p (nth 0 alphas i) zeta (nth [::] tss i)].
    elim: {Ha} alphas => [|alpha alphas [tss [H1 H2 H3]]]; first by exists [::].
    have [ts [T1 [T2 T3]]] := C87_complete _ _ _ _ _ Hg Hn Hp f Hf Hd Hsat alpha.
    exists (ts :: tss). split; [by rewrite /= H1|by rewrite /= T1 eqxx T2 H2|]. move=> [|i] Hi //=. exact: H3.
  exists tss. split=> //. split=> // zeta Z1 Z2. apply/C89_circuit.
  have Ho : all (fun o => size o == f) [seq [seq t.[zeta] | t : {poly F} <- ts] | ts <- tss].
    apply/allP => o /mapP[ts Hm ->]. rewrite size_map. by case/andP: (allP H2 _ Hm).
  apply/(C89_every_challenge _ _ _ _ _ _ _ _ _ _ Hf Ha _ Ho); first by rewrite size_map.
  move=> i Hi. rewrite (nth_map [::]) ?H1 //. exact: H3.
Qed.

(** With the quotients of a table that satisfies its constraints the circuit can be satisfied: the table of C87's example, three challenges. *)
Example C89_ex : forall zeta : 'F_5, zeta != 1 -> 2%:R * zeta != 1 ->
  exists quotient inv_first inv_last, quotients_circuit 1 2 (2%:R : 'F_5) [:: ex_doubling; ex_first 1; ex_last 3%:R] [:: 1; 2%:R; 3%:R] zeta
    (fun j => (ex_column j).[zeta]) (fun j => (ex_column j).[2%:R * zeta]) quotient inv_first inv_last.
Proof.
  move=> zeta H1 H2. have [_ H] := C87_complete_ex.
  have [t1 [s1 [_ /(_ _ H1 H2) a1]]] := H 1. have [t2 [s2 [_ /(_ _ H1 H2) a2]]] := H 2%:R. have [t3 [s3 [_ /(_ _ H1 H2) a3]]] := H 3%:R.
  pose op (t : seq {poly 'F_5}) := [seq q.[zeta] | q : {poly 'F_5} <- t].
  exists (flatten [:: op t1; op t2; op t3]). apply/C89_circuit/C89_every_challenge => //.
  - by rewrite /= !size_map s1 s2 s3.
  - by case=> [|[|[|i]]].
Qed.
(** The same table with a constraint its first row violates: whatever the only challenge, at most 8 points are accepted. *)
Example C89_sound_ex : forall alpha : 'F_5, forall ts : seq {poly 'F_5}, size ts = 1%N -> all (fun t : {poly 'F_5} => (size t <= 4)%N) ts ->
  forall zetas : seq 'F_5, uniq zetas ->
    (forall zeta, zeta \in zetas -> exists inv_first inv_last, quotients_circuit 1 2 (2%:R : 'F_5) [:: ex_first 2%:R] [:: alpha] zeta
      (fun j => (ex_column j).[zeta]) (fun j => (ex_column j).[2%:R * zeta]) (flatten [:: [seq t.[zeta] | t : {poly 'F_5} <- ts]]) inv_first inv_last) ->
    (size zetas <= 8)%N.
Proof.
  move=> alpha ts H1 H2 zetas Hu H.
  have [||a] := C89_sound [fieldType of 'F_5] 1 2 (2%:R) [:: ex_first 2%:R] ex_column isT ex_root isT ex_size (ex_first 2%:R) 0%N (or_introl erefl) isT C87_sound_ex [:: alpha] => //.
  rewrite inE => /eqP-> H'. apply: (H' [:: alpha] _ [:: ts]) => //; first by rewrite inE eqxx. by rewrite /= H1 eqxx H2.
Qed.
(** At a point of the subgroup's first or last row no inverses satisfy it, although the verifier's equation would read 0 = 0. *)
Example C89_ex_zero : forall inv_first inv_last, quotients_circuit 1 2 (2%:R : 'F_5) [:: ex_doubling] [:: 1] 1 (fun _ => 1) (fun _ => 2%:R) [:: 0] inv_first inv_last = false.
Proof. move=> i1 i2. by rewrite circuit_eq /verify_quotients subrr mulr0 eqxx !andbF. Qed.

Print Assumptions C89_circuit.
Print Assumptions C89_unique.
Print Assumptions C89_every_challenge.
Print Assumptions C89_sound.
Print Assumptions C89_complete.
