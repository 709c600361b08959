(** Proofs about the rounds of batched FRI. *)
From stdpp Require Import list.
From Coq Require Import Lia PeanoNat Bool List.
From Verif Require Import Word BatchModel BatchSpec.
Open Scope nat_scope.

(** Steps down of one to three *)
Fixpoint chain (l : list nat) : Prop := match l with x :: l' => match l' with y :: _ => y < x /\ x <= y + 3 /\ chain l' | [] => True end | [] => True end.
Lemma chain_app l1 x l2 : chain (l1 ++ [x]) -> chain (x :: l2) -> chain (l1 ++ x :: l2).
Proof.
  induction l1 as [|a l1 IH]; [auto|]. destruct l1 as [|b l1]; cbn [app chain] in *.
  - intros (H1 & H2 & _) H. auto.
  - intros (H1 & H2 & H3) H. split; [assumption|]. split; [assumption|]. apply IH; assumption.
Qed.
Lemma chain_one x : chain [x].
Proof. exact I. Qed.

Lemma down_at lo fuel hi : lo <= hi -> hi < fuel ->
  exists l e, down_by_3 fuel hi lo = l ++ [e] /\ List.hd 0 (l ++ [e]) = hi /\ chain (l ++ [e]) /\ lo <= e /\ e < lo + 3.
Proof.
  revert hi. induction fuel as [|fuel IH]; intros hi Hlo Hf; [lia|]. cbn [down_by_3]. rewrite (proj2 (Nat.leb_le _ _)) by assumption.
  destruct (3 <=? hi) eqn:E3.
  - apply Nat.leb_le in E3. destruct (Nat.le_gt_cases lo (hi - 3)) as [H|H].
    + destruct (IH (hi - 3) H ltac:(lia)) as (l & e & E & Eh & Ec & E1 & E2). rewrite E. exists (hi :: l), e. split; [reflexivity|]. split; [reflexivity|].
      split; [|auto]. cbn [app chain]. destruct (l ++ [e]) as [|y l']; [exact I|]. cbn in Eh. subst y. split; [lia|]. split; [lia|assumption].
    + assert (Hn : down_by_3 fuel (hi - 3) lo = []) by (destruct fuel; [reflexivity|]; cbn [down_by_3]; rewrite (proj2 (Nat.leb_gt _ _)) by assumption; reflexivity).
      rewrite Hn. exists [], hi. split; [reflexivity|]. split; [reflexivity|]. split; [exact I|lia].
  - apply Nat.leb_gt in E3. exists [], hi. split; [reflexivity|]. split; [reflexivity|]. split; [exact I|lia].
Qed.
Lemma rev_step_at lo hi : lo <= hi -> exists l e, rev_step_3 lo hi = l ++ [e] /\ List.hd 0 (l ++ [e]) = hi /\ chain (l ++ [e]) /\ lo <= e /\ e < lo + 3.
Proof. intros H. apply down_at; lia. Qed.

Lemma segments_at ds tail : descending ds -> ds <> [] -> tail <> [] -> List.hd 0 tail = List.last ds 0 -> chain tail ->
  let l := flat_map (fun '(d, next) => rev_step_3 (next + 1) d) (windows ds) ++ tail in
  chain l /\ List.hd 0 l = List.hd 0 ds /\ (forall d, List.In d ds -> List.In d l) /\ l <> [] /\ List.last l 0 = List.last tail 0.
Proof.
  intros Hd Hne Ht Hh Hc. induction ds as [|d ds IH]; [congruence|]. destruct ds as [|next ds].
  - cbn in *. destruct tail as [|t tail]; [congruence|]. cbn in Hh. subst. split; [assumption|]. split; [reflexivity|]. split; [intros e [<-|[]]; now left|]. split; [congruence|reflexivity].
  - cbn [descending] in Hd. destruct Hd as [H1 Hd]. destruct IH as (I1 & I2 & I3 & I4 & I5); [assumption|congruence|exact Hh|].
    change (windows (d :: next :: ds)) with ((d, next) :: windows (next :: ds)). cbn [flat_map]. rewrite <- app_assoc.
    set (l := flat_map _ (windows (next :: ds)) ++ tail) in *.
    destruct (rev_step_at (next + 1) d ltac:(lia)) as (l1 & e & E & Eh & Ec & E1 & E2). rewrite E. cbn zeta.
    destruct l as [|y l'] eqn:El; [congruence|]. cbn in I2. subst y.
    split; [|split; [|split; [|split]]].
    + rewrite <- app_assoc. cbn [app]. apply chain_app; [assumption|]. cbn [chain]. split; [lia|]. split; [lia|exact I1].
    + destruct l1; cbn in *; assumption.
    + intros x [<-|Hx].
      * apply in_or_app. left. destruct l1; cbn in *; left; congruence.
      * apply in_or_app. right. now apply I3.
    + intros H. apply app_eq_nil in H as [H _]. apply app_eq_nil in H as [_ H]. discriminate.
    + rewrite <- I5. clear. induction (l1 ++ [e]) as [|x m IHm]; [reflexivity|]. cbn [app]. rewrite <- IHm. destruct (m ++ next :: l') eqn:Em; [destruct m; discriminate|reflexivity].
Qed.
Lemma degrees_of_windows l : chain l -> l <> [] -> degrees_from (List.hd 0 l) (map (fun '(d, next) => d - next) (windows l)) = l.
Proof.
  induction l as [|x l IH]; [congruence|]. intros Hc _. destruct l as [|y l]; [reflexivity|]. cbn [chain] in Hc. destruct Hc as (H1 & H2 & H3).
  change (windows (x :: y :: l)) with ((x, y) :: windows (y :: l)). cbn [map degrees_from List.hd]. f_equal. replace (x - (x - y)) with y by lia. apply IH; [assumption|congruence].
Qed.
Lemma arities_of_windows l : chain l -> List.Forall (fun a => 1 <= a <= 3) (map (fun '(d, next) => d - next) (windows l)).
Proof.
  induction l as [|x l IH]; [constructor|]. intros Hc. destruct l as [|y l]; [constructor|]. cbn [chain] in Hc. destruct Hc as (H1 & H2 & H3).
  change (windows (x :: y :: l)) with ((x, y) :: windows (y :: l)). constructor; [lia|]. now apply IH.
Qed.
