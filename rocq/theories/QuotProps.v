(** C87: checking the quotients at a random point checks every constraint on every row. *)
From mathcomp Require Import all_ssreflect all_algebra.
From Verif Require Import QuotModel QuotSpec QuotProofs.
Import GRing.Theory.
Local Open Scope ring_scope.

(** If a table violates one of its constraints at one of its rows, then among any [size cs] different challenges alpha there is one for which,
    whatever quotients are committed, the verifier accepts at no more than n * (max (number of chunks) (degree) + 1) points zeta. *)
Theorem C87_sound (F : fieldType) (n : nat) (g : F) (cs : seq (constraint F)) (p : nat -> {poly F}) :
  n.-primitive_root g -> (n%:R : F) != 0 -> (forall j, (size (p j) <= n)%N) ->
  forall c i, List.In c cs -> (i < n)%N -> holds_at n (row g p) c i = false ->
  forall alphas : seq F, uniq alphas -> (size cs <= size alphas)%N ->
  exists2 alpha, alpha \in alphas & forall ts : seq {poly F}, all (fun t : {poly F} => (size t <= n)%N) ts ->
    forall zetas : seq F, uniq zetas -> all (fun zeta => accepts n g cs p alpha zeta ts) zetas -> (size zetas <= n * (maxn (size ts) (degree cs) + 1))%N.
Proof.
  move=> Hg Hn Hp c i Hc Hi Hv alphas Ha Hs. have [alpha H1 H2] := sound Hg Hn Hp Hc Hi (negbT Hv) Ha Hs.
  exists alpha => // ts Hts zetas Hu Hacc. rewrite addn1. exact: H2.
Qed.
(** If a table satisfies its constraints, and their degrees are at most one more than the number of chunks, then for every alpha there are
    quotients the verifier accepts at every point where it does not divide by zero. *)
Theorem C87_complete (F : fieldType) (n : nat) (g : F) (cs : seq (constraint F)) (p : nat -> {poly F}) :
  n.-primitive_root g -> (n%:R : F) != 0 -> (forall j, (size (p j) <= n)%N) ->
  forall f, (0 < f)%N -> (forall c, List.In c cs -> (constraint_degree c <= f + 1)%N) ->
  satisfied n (row g p) cs ->
  forall alpha, exists ts : seq {poly F}, size ts = f /\ all (fun t : {poly F} => (size t <= n)%N) ts /\
    forall zeta, zeta != 1 -> g * zeta != 1 -> accepts n g cs p alpha zeta ts.
Proof.
  move=> Hg Hn Hp f Hf Hd Hs alpha. have Hd' : forall c, List.In c cs -> (constraint_degree c <= f.+1)%N by move=> c /Hd; rewrite addn1.
  have [ts [H1 H2 H3]] := complete Hg Hn Hp alpha Hf Hd' Hs. exists ts. split=> //. split=> // zeta h1 h2.
  by apply: H3; rewrite mulf_neq0 // subr_eq0.
Qed.
(** eval_l_0_and_l_last computes the Lagrange polynomials of the first and the last row. *)
Theorem C87_lagrange (F : fieldType) (n : nat) (g : F) : n.-primitive_root g -> (n%:R : F) != 0 ->
  exists first last : {poly F}, (size first <= n)%N /\ (size last <= n)%N /\
    (forall i, (i < n)%N -> first.[g ^+ i] = (i == 0%N)%:R /\ last.[g ^+ i] = (i.+1 == n)%:R) /\
    forall x, x != 1 -> g * x != 1 -> eval_l_0 n x = first.[x] /\ eval_l_last n g x = last.[x].
Proof.
  move=> Hg Hn. exists (filterp n g FirstRow), (filterp n g LastRow).
  have Hp : forall j : nat, (size (0 : {poly F})%R <= n)%N by move=> _; rewrite size_poly0.
  split; [|split; [|split]].
  - by have := size_filterp Hg FirstRow; rewrite /= prednK // (n_gt0 Hg).
  - by have := size_filterp Hg LastRow; rewrite /= prednK // (n_gt0 Hg).
  - move=> i Hi /=. rewrite gX_horner -(gi_one Hg Hi) -(gS_one Hg Hi). split.
    + case: (altP (g ^+ i =P 1)) => [->|H]; first by rewrite L0_one. by rewrite (L0_other Hn H (gi_n Hg i)).
    + case: (altP (g * g ^+ i =P 1)) => [->|H]; first by rewrite L0_one. rewrite (L0_other Hn H) //. by rewrite exprMn (g_n Hg) (gi_n Hg) mul1r.
  - move=> x h1 h2. have h1' : n%:R * (x - 1) != 0 by rewrite mulf_neq0 // subr_eq0. have h2' : n%:R * (g * x - 1) != 0 by rewrite mulf_neq0 // subr_eq0.
    by rewrite (filterp_point Hg Hn FirstRow h1' h2') (filterp_point Hg Hn LastRow h1' h2').
Qed.

(** Over the field of five elements, 2 generates a subgroup of order 4: the powers of two. The column X has the rows 1, 2, 4, 3. *)
Definition ex_column (j : nat) : {poly 'F_5} := 'X.
Definition ex_doubling : constraint [fieldType of 'F_5] := (Always, CSub (CNext 0) (CMul (CConst 2%:R) (CLocal 0))).
Definition ex_first (v : 'F_5) : constraint [fieldType of 'F_5] := (FirstRow, CSub (CLocal 0) (CConst v)).
Definition ex_last (v : 'F_5) : constraint [fieldType of 'F_5] := (LastRow, CSub (CLocal 0) (CConst v)).
Lemma ex_root : 4.-primitive_root (2%:R : 'F_5).
Proof. apply/andP; split=> //. apply/forallP => -[[|[|[|[|i]]]] Hi]; rewrite unity_rootE //. Qed.
Lemma ex_size j : (size (ex_column j) <= 4)%N.
Proof. by rewrite /ex_column size_polyX. Qed.
Example C87_complete_ex : satisfied 4 (row (2%:R : 'F_5) ex_column) [:: ex_doubling; ex_first 1; ex_last 3%:R] /\
  forall alpha, exists ts : seq {poly 'F_5}, size ts = 1%N /\ all (fun t : {poly 'F_5} => (size t <= 4)%N) ts /\
    forall zeta, zeta != 1 -> 2%:R * zeta != 1 -> accepts 4 (2%:R : 'F_5) [:: ex_doubling; ex_first 1; ex_last 3%:R] ex_column alpha zeta ts.
Proof.
  have Hs : satisfied 4 (row (2%:R : 'F_5) ex_column) [:: ex_doubling; ex_first 1; ex_last 3%:R].
    move=> c i Hc Hi; case: Hc => [<-|[<-|[<-|[]]]]; case: i Hi => [|[|[|[|i]]]] // _; rewrite /holds_at /= /row /ex_column !hornerX; by [].
  split=> // alpha. apply: C87_complete => //; [exact: ex_root|exact: ex_size|].
  move=> c [<-|[<-|[<-|[]]]]; by [].
Qed.
Example C87_sound_ex : holds_at 4 (row (2%:R : 'F_5) ex_column) (ex_first 2%:R) 0 = false.
Proof. by rewrite /holds_at /= /row /ex_column !hornerX. Qed.

Print Assumptions C87_sound.
Print Assumptions C87_complete.
Print Assumptions C87_lagrange.
