(** C90: the prover and the verifier draw the same challenges; which public values these do not depend on. *)
From Verif Require Export TransModel.
From Verif Require Import TransRec.
From Verif Require Import LogupModel.
Open Scope nat_scope.

Section Proofs.
  Context {A : Type} (perm : list A -> list A).
  Notation run := (run perm).
  Lemma run_app c xs ys : run c (xs ++ ys) = run c xs ++ run (fold_left (fun c o => fst (step perm c o)) xs c) ys.
  Proof.
    revert c. induction xs as [|o xs IH]; intros c; cbn; auto. destruct (step perm c o) as [c' l] eqn:E. cbn. rewrite IH, app_assoc. f_equal.
  Qed.
  Definition settled (c : challenger A) := input c = [].
  Lemma draw_settled n c : settled c -> settled (fst (draw perm n c)).
  Proof.
    revert c. induction n as [|n IH]; intros c H; [exact H|]. cbn [draw]. destruct (get_challenge perm c) as [c1 x] eqn:E.
    assert (H1 : settled c1). { unfold get_challenge in E. injection E as <- _. unfold settled; cbn. rewrite H. destruct (output c); cbn; auto. }
    specialize (IH c1 H1). destruct (draw perm n c1) as [c2 xs] eqn:E2. exact IH.
  Qed.
  Lemma draw_S_settled n c : settled (fst (draw perm (S n) c)).
  Proof.
    cbn [draw]. destruct (get_challenge perm c) as [c1 x] eqn:E.
    assert (H1 : settled c1). { unfold get_challenge in E. injection E as <- _. unfold settled; cbn. destruct (input c) eqn:Ei; [destruct (output c)|]; cbn; auto. }
    pose proof (draw_settled n c1 H1) as H. destruct (draw perm n c1) as [c2 xs]. exact H.
  Qed.
  Lemma compact_step c x xs os : settled c -> run c (Compact :: Observe (x :: xs) :: os) = run c (Observe (x :: xs) :: os).
  Proof.
    intros H. cbn. unfold compact. rewrite H. cbn. unfold observe at 2 4. cbn. rewrite H. reflexivity.
  Qed.
  Definition after (c : challenger A) (os : list (op A)) := fold_left (fun c o => fst (step perm c o)) os c.
  Lemma after_app c xs ys : after c (xs ++ ys) = after (after c xs) ys.
  Proof. apply fold_left_app. Qed.
  Lemma single_settled nc q m c : settled (after c (single nc q m)).
  Proof.
    unfold single, fri. rewrite !after_app. cbn -[draw]. apply draw_settled, draw_S_settled.
  Qed.
  Lemma compact_after c x xs os : settled c -> after c (Compact :: Observe (x :: xs) :: os) = after c (Observe (x :: xs) :: os).
  Proof. intros H. cbn. unfold compact. rewrite H. cbn. unfold observe at 2 4. cbn. rewrite H. reflexivity. Qed.
  Lemma compacts nc q (table : Z -> messages A) ks rest c : settled c -> (forall k, m_zs (table k) <> []) ->
    run c (flat_map (fun k => Compact :: single nc q (table k)) ks ++ rest) = run c (flat_map (fun k => single nc q (table k)) ks ++ rest).
  Proof.
    intros Hc Hz. revert c Hc. induction ks as [|k ks IH]; intros c Hc; auto. cbn [flat_map]. rewrite <- !app_assoc.
    assert (Hs : forall os, run c ((Compact :: single nc q (table k)) ++ os) = run c (single nc q (table k) ++ os)).
    { intros os. pose proof (Hz k) as Hk. unfold single. destruct (m_zs (table k)) as [|x xs]; [congruence|]. cbn [app]. apply compact_step, Hc. }
    rewrite Hs, !(run_app c (single nc q (table k))). f_equal. apply IH. apply single_settled.
  Qed.
End Proofs.

(** If the public tables are listed in the order of the tables, the verifier draws exactly the prover's challenges, although it compacts its sponge
    before each public table and the prover does not. *)
Theorem C90_same_partial : forall A (perm : list A -> list A) c kinds trace batch_trace (table : Z -> messages A) batch num_challenges queries public,
  List.filter (contains public) kinds = public -> 0 < num_challenges -> (forall k, m_zs (table k) <> []) ->
  run perm c (verifier_ops kinds trace batch_trace table batch num_challenges queries public) = run perm c (prover_ops kinds trace batch_trace table batch num_challenges queries public).
Proof.
  intros A perm c kinds trace bt table batch nc q public Hp Hn Hz. unfold verifier_ops, prover_ops. rewrite Hp.
  rewrite !(run_app perm c (map _ _)). f_equal. set (c1 := fold_left _ _ c). rewrite !(run_app perm c1 [_; _]). f_equal. apply compacts; auto.
  cbn -[draw Nat.mul]. destruct nc as [|nc]; [lia|]. change (2 * S nc) with (S (nc + S (nc + 0))). apply draw_S_settled.
Qed.
(** Listed in another order, its challenges are others: two public tables, with a permutation that mixes its state. *)
Definition ex_perm (s : list Z) : list Z := let t := fold_left (fun acc x => (acc * 31 + x)%Z) s 7%Z in map (fun i => (t + Z.of_nat i)%Z) (seq 0 12).
Definition ex_table (k : Z) : messages Z := mkMsgs [k; 1%Z] [k; 2%Z] [k; 3%Z] [[k; 4%Z]] [k; 5%Z] k.
Definition ex_start : challenger Z := mkChal (repeat 0%Z 12) [] [].
Theorem C90_order_refuted : exists kinds public (trace : Z -> list Z) batch_trace table batch,
  (forall k, In k public <-> In k kinds) /\ List.NoDup public /\
  run ex_perm ex_start (verifier_ops kinds trace batch_trace table batch 2 1 public) <> run ex_perm ex_start (prover_ops kinds trace batch_trace table batch 2 1 public).
Proof.
  exists [1%Z; 2%Z], [2%Z; 1%Z], (fun k => [k]), [9%Z], ex_table, (ex_table 3). split; [cbn; tauto|]. split.
  - repeat constructor; cbn; try lia; tauto.
  - vm_compute. intros H. discriminate H.
Qed.
Example C90_same_ex : run ex_perm ex_start (verifier_ops [1%Z; 2%Z; 3%Z] (fun k => [k]) [9%Z] ex_table (ex_table 4) 2 1 [1%Z; 3%Z]) =
  run ex_perm ex_start (prover_ops [1%Z; 2%Z; 3%Z] (fun k => [k]) [9%Z] ex_table (ex_table 4) 2 1 [1%Z; 3%Z]).
Proof. apply C90_same_partial; [reflexivity|lia|intros k; cbn; discriminate]. Qed.

(** The recursive verifier's challenger draws the challenges of the verifier's, for every sequence of operations. *)
Theorem C90_recursive : forall A (perm : list A -> list A) (ops : list (op A)) (s : list A),
  (forall s, perm s <> []) -> rec_run perm (mkChal s [] []) ops = run perm (mkChal s [] []) ops.
Proof.
  intros A perm ops s Hp. assert (H : forall r, rec_run perm r ops = run perm (caught_up perm r) ops).
  { induction ops as [|o ops IH]; intros r; [reflexivity|]. cbn [rec_run run]. destruct o as [xs|n|]; cbn [rec_step step].
    - rewrite IH, observe_rec. reflexivity.
    - pose proof (draw_rec perm n Hp r) as E. destruct (rec_draw perm n r) as [r' xs]. rewrite E, IH. reflexivity.
    - rewrite IH, compact_rec. reflexivity. }
  rewrite H. reflexivity.
Qed.
Example C90_recursive_ex : rec_run ex_perm ex_start [Observe (repeat 1%Z 11); Draw 3; Compact; Draw 9; Observe (repeat 2%Z 16); Draw 1] =
  run ex_perm ex_start [Observe (repeat 1%Z 11); Draw 3; Compact; Draw 9; Observe (repeat 2%Z 16); Draw 1].
Proof. apply C90_recursive. intros s. discriminate. Qed.


(** The public values of a proof enter no transcript. After the challenges are drawn, other public values can be computed which the same proof is
    accepted with: if any row of a public sub table has more columns than the two challenges of the standard configuration. *)
Theorem C90_public_values_refuted : forall (c1 c2 : challenge) (before after : list (list Z)) (v0 v1 v2 : Z) (row : list Z),
  exists forged : list Z, length forged = length (v0 :: v1 :: v2 :: row) /\
    ((nth 2 forged 0 - v2) mod P <> 0)%Z /\
    forall c, c = c1 \/ c = c2 -> reduce_values c (before ++ forged :: after) = reduce_values c (before ++ (v0 :: v1 :: v2 :: row) :: after).
Proof.
  intros c1 c2 before after v0 v1 v2 row.
  exists ((v0 + ch_beta c1 * ch_beta c2) :: (v1 - (ch_beta c1 + ch_beta c2)) :: (v2 + 1) :: row)%Z. split; [reflexivity|]. split.
  - cbn. replace (v2 + 1 - v2)%Z with 1%Z by lia. unfold P. rewrite Z.mod_1_l; lia.
  - intros c Hc.
    assert (E : combine c ((v0 + ch_beta c1 * ch_beta c2) :: (v1 - (ch_beta c1 + ch_beta c2)) :: (v2 + 1) :: row)%Z = combine c (v0 :: v1 :: v2 :: row)).
    { unfold combine, reduce_with_powers. cbn [fold_right]. destruct Hc as [-> | ->]; ring. }
    unfold reduce_values. rewrite !forallb_app, !map_app. cbn [forallb map]. rewrite E. reflexivity.
Qed.
(** And with one column, as the sub tables of this code have: three rows exchanged for others that are not even bytes, the two challenges
    not distinguishing them (beta plays no role for one column). *)
Theorem C90_one_column_refuted : exists gamma1 gamma2 : Z, (gamma1 <> gamma2)%Z /\ exists rows forged : list (list Z),
  Forall (fun r => exists b, r = [b] /\ (0 <= b < 256)%Z) rows /\ Forall (fun r => exists b, r = [b] /\ (256 <= b < P)%Z) forged /\
  length rows = length forged /\
  forall before after c, ch_gamma c = gamma1 \/ ch_gamma c = gamma2 -> reduce_values c (before ++ forged ++ after) = reduce_values c (before ++ rows ++ after).
Proof.
  exists 1234567890123456789%Z, 9876543210987654321%Z. split; [lia|].
  exists [[104]; [105]; [33]]%Z, [[2504074768082561164]; [13362121627524962128]; [11375042644830602718]]%Z.
  split; [repeat constructor; eexists; (split; [reflexivity|lia])|]. split; [repeat constructor; eexists; (split; [reflexivity|unfold P; lia])|]. split; [reflexivity|].
  intros before after [b g] Hc. cbn [ch_gamma] in Hc. unfold reduce_values. rewrite !forallb_app, !map_app.
  assert (E : forall v, combine (mkChallenge b g) [v] = (v + g)%Z) by (intros v; unfold combine, reduce_with_powers; cbn; lia).
  cbn [forallb map]. rewrite !E. rewrite !sumZ_app.
  assert (Hs : forall x y z w : Z, (x mod P = y mod P)%Z -> ((z + (x + w)) mod P = (z + (y + w)) mod P)%Z).
  { intros x y z w H. rewrite (Zplus_mod z (x + w)), (Zplus_mod z (y + w)), (Zplus_mod x w), (Zplus_mod y w), H. reflexivity. }
  destruct Hc as [-> | ->]; match goal with |- (if ?a then _ else _) = (if ?b then _ else _) => replace a with b end; try reflexivity.
  all: match goal with |- (if ?a then _ else _) = _ => destruct a; [f_equal; apply Hs; vm_compute; reflexivity|reflexivity] end.
Qed.
Print Assumptions C90_same_partial.
Print Assumptions C90_order_refuted.
Print Assumptions C90_public_values_refuted.
Print Assumptions C90_one_column_refuted.
Print Assumptions C90_recursive.
