(** C88: the quotients the prover computes on a coset are accepted. *)
From Coq Require PeanoNat.
From mathcomp Require Import all_ssreflect all_algebra.
From Verif Require Import QuotModel QuotSpec QuotProofs CosetModel CosetProofs.
Import GRing.Theory.
Local Open Scope ring_scope.

(** If the rows of a table satisfy its constraints and their degrees are at most one more than the number [factor] of chunks, then the prover
    does not panic, and the chunks it commits to are accepted at every point where the verifier does not divide by zero - for every
    challenge, blowup (at least the number of chunks) and coset disjoint from the domain. *)
Theorem C88_prover (F : fieldType) (n rate factor : nat) (W s : F) (cs : seq (constraint F)) (p : nat -> {poly F}) :
  let blowup := (2 ^ rate)%N in
  let g := W ^+ blowup in
  (n * blowup).-primitive_root W -> ((n * blowup)%:R : F) != 0 -> s != 0 -> s ^+ (n * blowup) != 1 ->
  (0 < factor)%N -> (factor <= blowup)%N ->
  (forall j, (size (p j) <= n)%N) -> (forall c, List.In c cs -> (constraint_degree c <= factor + 1)%N) ->
  satisfied n (row g p) cs ->
  forall alpha, exists ts : seq {poly F}, prove_quotient n rate factor W s cs p alpha = Some ts /\
    size ts = factor /\ all (fun t : {poly F} => (size t <= n)%N) ts /\
    forall zeta, zeta != 1 -> g * zeta != 1 -> accepts n g cs p alpha zeta ts.
Proof.
  move=> blowup g. rewrite /g /blowup -pow_expn => HW HN Hs0 Hs Hf Hr Hp Hd Hsat alpha.
  have Hrate : (log2_ceil factor <= rate)%N by exact: log2_ceil_rate.
  have Hd' : forall c, List.In c cs -> (constraint_degree c <= factor.+1)%N by move=> c /Hd; rewrite addn1.
  have [ts H1 [H2 H3 H4]] := prove_at HW Hrate HN Hs0 Hs Hf alpha Hd' Hp Hsat.
  exists ts. split=> //. split=> //. split=> // zeta h1 h2. have Hn0 := Hn0 HN.
  by apply: H4; rewrite mulf_neq0 // subr_eq0.
Qed.
(** plonky2's transforms invert evaluation on the subgroup and on its coset. *)
Theorem C88_transforms (F : fieldType) (N : nat) (w s : F) (q : {poly F}) : N.-primitive_root w -> (N%:R : F) != 0 -> s != 0 -> (size q <= N)%N ->
  ifft N w (fun i => q.[w ^+ i]) = q /\ coset_ifft N w s (fun i => q.[s * w ^+ i]) = q.
Proof. move=> Hw HN Hs Hq. split; [exact: ifft_eval|exact: coset_ifft_eval]. Qed.

(** Over the field of seventeen elements: 2 has order 8, its square 4 order 4; 3 is not in the subgroup. The column X has the rows 1, 4, 16, 13; a
    constraint of degree three, on all rows, and one on the last row; two chunks. *)
Definition ex17 : seq (constraint [fieldType of 'F_17]) :=
  [:: (Always, CSub (CMul (CMul (CNext 0) (CLocal 0)) (CLocal 0)) (CMul (CConst 4%:R) (CMul (CLocal 0) (CMul (CLocal 0) (CLocal 0)))));
      (LastRow, CSub (CLocal 0) (CConst 13%:R))].
Lemma root17 : 8.-primitive_root (2%:R : 'F_17).
Proof. apply/andP; split=> //. apply/forallP => -[[|[|[|[|[|[|[|[|i]]]]]]]] Hi]; rewrite unity_rootE //. Qed.
Example C88_prover_ex alpha : exists ts : seq {poly 'F_17}, prove_quotient 4 1 2 (2%:R : 'F_17) 3%:R ex17 (fun _ => 'X) alpha = Some ts /\ size ts = 2%N /\
  accepts 4 (4%:R : 'F_17) ex17 (fun _ => 'X) alpha 3%:R ts.
Proof.
  have Hs : satisfied 4 (row ((2%:R : 'F_17) ^+ 2) (fun _ => 'X)) ex17.
    move=> c i Hc Hi; case: Hc => [<-|[<-|[]]]; case: i Hi => [|[|[|[|i]]]] // _; rewrite /holds_at /= /row !hornerX; by [].
  have Hp : forall j : nat, (size ('X : {poly 'F_17}) <= 4)%N by move=> _; rewrite size_polyX.
  have Hd : forall c, List.In c ex17 -> (constraint_degree c <= 2 + 1)%N by move=> c [<-|[<-|[]]].
  have [ts [H1 [H2 [H3 H4]]]] := @C88_prover [fieldType of 'F_17] 4 1 2 2%:R 3%:R ex17 (fun _ => 'X) root17 isT isT isT isT isT Hp Hd Hs alpha.
  exists ts. split=> //. split=> //. have -> : (4%:R : 'F_17) = 2%:R ^+ 2 by []. exact: H4.
Qed.

Print Assumptions C88_prover.
Print Assumptions C88_transforms.
