(** Algebraic intermediate representations and cross-table lookups.
    A table is a list of rows; a constraint is an integer expression over a row and its successor that must vanish
    modulo the Goldilocks prime. *)
From stdpp Require Export base list gmap numbers.
From Verif Require Export Field Word.
Open Scope Z_scope.

(** expr/src/lib.rs:114-119 is_binary *)
Definition is_binary (x : Z) : Z := x * (1 - x).
(** core::iter::Sum (expr/src/ops.rs:88-90) *)
Definition sumZ (l : list Z) : Z := fold_left Z.add l 0.
(** expr/src/lib.rs:121-130 reduce_with_powers; circuits/src/linear_combination_typed.rs reduce_with_powers *)
Definition reduce_with_powers (l : list Z) (b : Z) : Z := fold_right (fun t acc => acc * b + t) 0 l.

(** circuits/src/expr.rs:90-139 ConstraintBuilder: the four kinds of constraints. [first]/[last] constraints only ever
    mention the local row in this code base; [always] constraints mention the local and the next row. *)
Record air (R : Type) := mkAir {
  a_first : R -> list Z; a_always : R -> R -> list Z; a_transition : R -> R -> list Z; a_last : R -> list Z }.
Arguments mkAir {R}. Arguments a_first {R}. Arguments a_always {R}. Arguments a_transition {R}. Arguments a_last {R}.

Definition all_zero (l : list Z) : Prop := Forall fzero l.

(** circuits/src/expr.rs:36-82 build_ext / build_packed hand the constraints to starky's ConstraintConsumer
    (constraint, constraint_first_row, constraint_transition, constraint_last_row): on the trace domain this means
    that [always] constraints hold on every row (the successor of the last row being the first row), [transition]
    constraints on every row but the last, [first] / [last] on the first / last row. *)
Record trace_sat {R} (A : air R) (t : list R) : Prop := {
  ts_nonempty : t <> [];
  ts_first : forall r, t !! 0%nat = Some r -> all_zero (a_first A r);
  ts_always : forall i r r', t !! i = Some r -> t !! (S i mod length t)%nat = Some r' -> all_zero (a_always A r r');
  ts_transition : forall i r r', t !! i = Some r -> t !! S i = Some r' -> all_zero (a_transition A r r');
  ts_last : forall r, stdpp.list.last t = Some r -> all_zero (a_last A r) }.

(** Field elements are equal when congruent modulo the prime *)
Definition feq (a b : Z) : Prop := a mod P = b mod P.
#[global] Instance feq_dec a b : Decision (feq a b).
Proof. unfold feq. apply _. Defined.

(** One side of a lookup: the tuples sent with their multiplicity (filter column), one per row and looking column
    set. *)
Definition entries := list (list Z * Z).
Definition tuple_key (v : list Z) : list Z := map (fun x => x mod P) v.
Definition mult_of (v : list Z) (e : entries) : Z :=
  sumZ (map (fun '(t, f) => if decide (tuple_key t = tuple_key v) then f else 0) e).

(** circuits/src/cross_table_lookup.rs:484-566 ctl_utils::check_single_ctl: for every tuple the multiplicities add up
    to zero in the field, the looked table's multiplicities having been negated by CrossTableLookup::new (lines
    272-281). *)
Definition ctl_ok (looking looked : entries) : Prop :=
  forall v, fzero (mult_of v looking - mult_of v looked).

Lemma sumZ_cons (a : Z) (l : list Z) : sumZ (a :: l) = a + sumZ l.
Proof.
  assert (H : forall l a b, fold_left Z.add l (a + b) = a + fold_left Z.add l b).
  { clear. induction l as [|x l IH]; intros a b; cbn [fold_left]; auto. rewrite <- Z.add_assoc. apply IH. }
  unfold sumZ. cbn [fold_left]. rewrite (Z.add_comm 0 a). apply H.
Qed.
Lemma sumZ_app l l' : sumZ (l ++ l') = sumZ l + sumZ l'.
Proof. induction l as [|a l IH]; [reflexivity|]. cbn [app]. rewrite !sumZ_cons, IH. lia. Qed.

Lemma fzero_binary x : fzero (is_binary x) -> fzero x \/ fzero (1 - x).
Proof. apply fzero_mul. Qed.
Lemma binary_canon x : canon x -> fzero (is_binary x) -> x = 0 \/ x = 1.
Proof.
  intros C H. destruct (fzero_binary _ H) as [Z|Z]; [left|right].
  - apply fzero_small in Z; unfold canon in C; lia.
  - apply fzero_small in Z; unfold canon, P in *; lia.
Qed.
Lemma is_binary_01 x : x = 0 \/ x = 1 -> fzero (is_binary x).
Proof. intros [->| ->]; reflexivity. Qed.

(** ** What a satisfied lookup gives *)
Definition bit (x : Z) : Prop := x = 0 \/ x = 1.
Lemma mult_of_cons v t f e : mult_of v ((t, f) :: e) = (if decide (tuple_key t = tuple_key v) then f else 0) + mult_of v e.
Proof. unfold mult_of. cbn [map]. apply sumZ_cons. Qed.
Lemma mult_of_bits v e : Forall (fun x => bit (snd x)) e -> 0 <= mult_of v e <= Z.of_nat (length e).
Proof.
  induction e as [|[t f] e IH]; intros F; [cbn; lia|]. rewrite mult_of_cons. inversion F as [|? ? B F']; subst; cbn in B.
  specialize (IH F'). cbn [length]. case_decide; unfold bit in B; lia.
Qed.
Lemma mult_of_pos v e : Forall (fun x => bit (snd x)) e -> In (v, 1) e -> 1 <= mult_of v e.
Proof.
  induction e as [|[t f] e IH]; intros F I; [destruct I|]. rewrite mult_of_cons. inversion F as [|? ? B F']; subst; cbn in B.
  pose proof (mult_of_bits v e F'). destruct I as [I|I].
  - injection I as -> ->. rewrite decide_True by auto. lia.
  - specialize (IH F' I). case_decide; unfold bit in B; lia.
Qed.
Lemma mult_of_absent v e : (forall t m, In (t, m) e -> tuple_key t = tuple_key v -> fzero m) -> fzero (mult_of v e).
Proof.
  induction e as [|[t f] e IH]; intros H; [reflexivity|]. rewrite mult_of_cons. apply fzero_add.
  - case_decide; [apply (H t); cbn; auto|apply fzero_0].
  - apply IH. intros t' m I. apply H. cbn; auto.
Qed.
(** The check of cross_table_lookup.rs:484-566 as an executable function; it decides [ctl_ok]. *)
Definition ctl_check (looking looked : entries) : bool :=
  forallb (fun '(t, _) => (mult_of t looking - mult_of t looked) mod P =? 0) (looking ++ looked).
Lemma mult_of_key v w e : tuple_key v = tuple_key w -> mult_of v e = mult_of w e.
Proof. intros E. unfold mult_of. rewrite E. reflexivity. Qed.
Lemma mult_of_nokey v e : (forall t m, In (t, m) e -> tuple_key t <> tuple_key v) -> mult_of v e = 0.
Proof.
  induction e as [|[t f] e IH]; intros H; [reflexivity|]. rewrite mult_of_cons, decide_False.
  - apply IH. intros t' m I. apply (H t' m). cbn; auto.
  - apply (H t f). cbn; auto.
Qed.
Lemma ctl_check_ok looking looked : ctl_check looking looked = true <-> ctl_ok looking looked.
Proof.
  unfold ctl_check, ctl_ok. rewrite forallb_forall. split.
  - intros H v. destruct (decide (Exists (fun x => tuple_key (fst x) = tuple_key v) (looking ++ looked))) as [E|E].
    + apply List.Exists_exists in E as ((t & m) & I & K). cbn in K. specialize (H _ I). cbn in H. apply Z.eqb_eq in H.
      rewrite <- (mult_of_key t v looking K), <- (mult_of_key t v looked K). exact H.
    + assert (N : forall t m, In (t, m) (looking ++ looked) -> tuple_key t <> tuple_key v).
      { intros t m I K. apply E. apply List.Exists_exists. exists (t, m). auto. }
      rewrite !mult_of_nokey; [reflexivity| |]; intros t m I; apply (N t m), in_or_app; auto.
  - intros H [t m] _. apply Z.eqb_eq. apply H.
Qed.

(** The general membership lemma: non-negative multiplicities whose total stays below the field size *)
Definition mult_total (e : entries) : Z := sumZ (map snd e).
Lemma total_cons t f e : mult_total ((t, f) :: e) = f + mult_total e.
Proof. apply sumZ_cons. Qed.
Lemma mult_of_total v e : Forall (fun x => 0 <= snd x) e -> 0 <= mult_of v e <= mult_total e.
Proof.
  induction e as [|[t f] e IH]; intros F; [cbn; lia|]. rewrite mult_of_cons, total_cons. inversion F as [|? ? B F']; subst; cbn in B.
  specialize (IH F'). case_decide; lia.
Qed.
Lemma mult_of_ge v f e : Forall (fun x => 0 <= snd x) e -> In (v, f) e -> f <= mult_of v e.
Proof.
  induction e as [|[t g] e IH]; intros F I; [destruct I|]. rewrite mult_of_cons. inversion F as [|? ? B F']; subst; cbn in B.
  pose proof (mult_of_total v e F'). destruct I as [I|I].
  - injection I as -> ->. rewrite decide_True by auto. lia.
  - specialize (IH F' I). case_decide; lia.
Qed.
Lemma ctl_member_total looking looked v f : ctl_ok looking looked -> Forall (fun x => 0 <= snd x) looking ->
  mult_total looking < P -> In (v, f) looking -> 0 < f ->
  exists t m, In (t, m) looked /\ tuple_key t = tuple_key v /\ ~ fzero m.
Proof.
  intros C B L I Hf.
  assert (D : forall e : entries, (exists t m, In (t, m) e /\ tuple_key t = tuple_key v /\ ~ fzero m) \/
            (forall t m, In (t, m) e -> tuple_key t = tuple_key v -> fzero m)).
  { clear. induction e as [|[t f] e IH]; [right; intros ? ? []|].
    destruct IH as [(t' & m & I & K & N)|H]; [left; exists t', m; cbn; auto|].
    destruct (decide (tuple_key t = tuple_key v /\ f mod P <> 0)) as [[K N]|N]; [left; exists t, f; cbn; auto|right].
    intros t' m [E|I] K; [injection E as <- <-|eauto]. unfold fzero. destruct (decide (f mod P = 0)); auto.
    exfalso; auto. }
  destruct (D looked) as [H|H]; auto. exfalso.
  pose proof (mult_of_absent v looked H) as Z0. pose proof (mult_of_total v _ B). pose proof (mult_of_ge v f _ B I).
  pose proof (fzero_add _ _ (C v) Z0) as E. replace (_ + _) with (mult_of v looking) in E by lia.
  apply fzero_small in E; lia.
Qed.

(** In particular: if the looking side only uses multiplicities 0 and 1 and has fewer rows than the field has
    elements, every tuple sent occurs in the looked table with a non-zero multiplicity. *)
Lemma total_bits e : Forall (fun x => bit (snd x)) e -> mult_total e <= Z.of_nat (length e).
Proof.
  induction e as [|[t f] e IH]; intros F; [cbn; lia|]. rewrite total_cons. inversion F as [|? ? B F']; subst; cbn in B.
  specialize (IH F'). cbn [length]. unfold bit in B. lia.
Qed.
Lemma ctl_member looking looked v : ctl_ok looking looked -> Forall (fun x => bit (snd x)) looking ->
  Z.of_nat (length looking) < P -> In (v, 1) looking ->
  exists t m, In (t, m) looked /\ tuple_key t = tuple_key v /\ ~ fzero m.
Proof.
  intros C B L I. apply (ctl_member_total looking looked v 1); auto; [|pose proof (total_bits _ B); lia|lia].
  revert B. apply Forall_impl. unfold bit. lia.
Qed.
