(** C84: sizes of coefficients, the Goldilocks field and its quadratic extension as cells. *)
From stdpp Require Import list.
From Coq Require Import ZArith Lia Ring Ring_theory.
From Verif Require Import Word ExprModel ExprSpec ColumnModel ColumnSpec ColumnProofs.
Open Scope Z_scope.

(** ** Shapes *)
Definition shaped (n : nat) (c : typed) : Prop := length (t_lv c) = n /\ length (t_nv c) = n.
Lemma map_res_length {A B} (f : A -> res B) l ys : map_res f l = Ok ys -> length ys = length l.
Proof. intros E. symmetry. eapply Forall2_length, map_res_inv, E. Qed.
Lemma zip_res_length f a : forall b c, zip_res f a b = Ok c -> length c = length a.
Proof.
  induction a as [|x a IH]; intros [|y b] c; cbn; try discriminate; [intros [= <-]; reflexivity|]. intros E. obind E. obind E. injection E as <-. cbn. f_equal. eauto.
Qed.
Lemma shaped_zero n : shaped n (typed_zero n).
Proof. split; apply repeat_length. Qed.
Lemma shaped_at n cs i : Forall (shaped n) cs -> shaped n (t_at n cs i).
Proof. intros H. unfold t_at. revert i. induction H as [|c cs Hc _ IH]; intros [|i]; cbn; auto using shaped_zero. Qed.
Lemma shaped_ats n cs is : Forall (shaped n) cs -> Forall (shaped n) (map (t_at n cs) is).
Proof. intros H. apply List.Forall_map, List.Forall_forall. intros i _. apply shaped_at, H. Qed.
Lemma shaped_neg n a c : shaped n a -> t_neg a = Ok c -> shaped n c.
Proof. intros [A B] E. unfold t_neg in E. obind E. obind E. obind E. injection E as <-. split; cbn; [apply map_res_length in E0|apply map_res_length in E1]; congruence. Qed.
Lemma shaped_mul n a k c : shaped n a -> t_mul_int a k = Ok c -> shaped n c.
Proof. intros [A B] E. unfold t_mul_int in E. obind E. obind E. obind E. injection E as <-. split; cbn; [apply map_res_length in E0|apply map_res_length in E1]; congruence. Qed.
Lemma shaped_add n a b c : shaped n a -> t_add a b = Ok c -> shaped n c.
Proof. intros [A B] E. unfold t_add in E. obind E. obind E. obind E. injection E as <-. split; cbn; [apply zip_res_length in E0|apply zip_res_length in E1]; congruence. Qed.
Lemma shaped_sub n a b c : shaped n a -> t_sub a b = Ok c -> shaped n c.
Proof. intros [A B] E. unfold t_sub in E. obind E. obind E. obind E. injection E as <-. split; cbn; [apply zip_res_length in E0|apply zip_res_length in E1]; congruence. Qed.
Lemma shaped_flip n a : shaped n a -> shaped n (t_flip a).
Proof. intros [A B]. split; assumption. Qed.
Lemma shaped_add_int n a k c : shaped n a -> t_add_int a k = Ok c -> shaped n c.
Proof. intros [A B] E. unfold t_add_int in E. obind E. injection E as <-. split; assumption. Qed.
Lemma shaped_sum n l : forall acc c, shaped n acc -> t_sum_from acc l = Ok c -> shaped n c.
Proof. induction l as [|a l IH]; intros acc c H; cbn; [intros [= <-]; exact H|]. intros E. obind E. eapply IH; [|exact E]. eapply shaped_add; eassumption. Qed.
Lemma shaped_reduce n l alpha c : t_reduce n l alpha = Ok c -> shaped n c.
Proof.
  revert c. induction l as [|a l IH]; intros c; cbn; [intros [= <-]; apply shaped_zero|]. intros E. obind E. obind E.
  eapply shaped_add; [|exact E]. eapply shaped_mul; [|exact E1]. auto.
Qed.
Lemma shaped_step n cs c x : Forall (shaped n) cs -> t_step n cs c = Ok x -> shaped n x.
Proof.
  intros H E. destruct c; cbn [t_step] in E.
  - injection E as <-. split; cbn; rewrite ?insert_length; apply repeat_length.
  - injection E as <-. apply (shaped_zero n).
  - injection E as <-. apply shaped_flip, shaped_at, H.
  - unfold t_diff in E. eapply shaped_sub; [|exact E]. apply shaped_flip, shaped_at, H.
  - eapply shaped_neg; [|exact E]. apply shaped_at, H.
  - unfold t_not, int_t_sub in E. obind E. eapply shaped_add_int; [|exact E]. eapply shaped_neg; [|exact E0]. apply shaped_at, H.
  - eapply shaped_add; [|exact E]. apply shaped_at, H.
  - eapply shaped_sub; [|exact E]. apply shaped_at, H.
  - eapply shaped_add_int; [|exact E]. apply shaped_at, H.
  - unfold t_sub_int in E. obind E. injection E as <-. apply (shaped_at n cs i H).
  - unfold int_t_sub in E. obind E. eapply shaped_add_int; [|exact E]. eapply shaped_neg; [|exact E0]. apply shaped_at, H.
  - eapply shaped_mul; [|exact E]. apply shaped_at, H.
  - eapply shaped_sum; [|exact E]. apply shaped_zero.
  - eapply shaped_reduce; exact E.
  - unfold t_ascending in E. obind E. eapply shaped_sum; [|exact E]. apply shaped_zero.
Qed.
Lemma shaped_run n p : forall cs cs', Forall (shaped n) cs -> t_run n p cs = Ok cs' -> Forall (shaped n) cs'.
Proof.
  induction p as [|c p IH]; intros cs cs' H E; cbn in *; [injection E as <-; exact H|]. obind E. eapply IH; [|exact E].
  apply List.Forall_app. split; [exact H|]. constructor; [|constructor]. eapply shaped_step; eassumption.
Qed.
Lemma shaped_within n c : shaped n c -> within n (from_typed c).
Proof. intros [A B]. split; cbn; [rewrite <- A|rewrite <- B]; apply (to_sparse_within _ 0). Qed.

(** ** Sizes *)
Definition upto (b : Z) (l : list Z) : Prop := Forall (fun x => Z.abs x <= b) l.
Definition sized (n : nat) (b : Z) (c : typed) : Prop := shaped n c /\ upto b (t_lv c) /\ upto b (t_nv c) /\ Z.abs (t_const c) <= b.
Notation M := (2 ^ 63).
Lemma map_checked_ok (f : Z -> Z) b l : Forall (fun x => Z.abs (f x) <= b) l -> b < M -> exists l', map_res (fun x => checked (f x)) l = Ok l' /\ upto b l' /\ length l' = length l.
Proof.
  intros H Hb. exists (map f l). split; [|split; [apply List.Forall_map; exact H|apply map_length]]. apply map_res_ok. revert H. apply List.Forall_impl. intros x L. apply checked_ok. lia.
Qed.
Lemma zip_checked_ok (f : Z -> Z -> Z) b b1 b2 (Hf : forall x y, Z.abs x <= b1 -> Z.abs y <= b2 -> Z.abs (f x y) <= b) (Hb : b < M) l : forall r, upto b1 l -> upto b2 r -> length l = length r ->
  exists c, zip_res (fun x y => checked (f x y)) l r = Ok c /\ upto b c /\ length c = length l.
Proof.
  induction l as [|x l IH]; intros [|y r] H1 H2 L; cbn in L; try lia; [exists []; repeat split; constructor|].
  inversion H1; inversion H2; subst. destruct (IH r) as (c & E & U & Lc); [assumption|assumption|lia|]. specialize (Hf x y ltac:(assumption) ltac:(assumption)).
  exists (f x y :: c). cbn. rewrite checked_ok by lia. cbn. rewrite E. cbn. repeat split; [constructor; assumption|congruence].
Qed.
Lemma upto_impl b b' l : b <= b' -> upto b l -> upto b' l.
Proof. intros L. apply List.Forall_impl. intros; lia. Qed.
Lemma sized_impl n b b' c : b <= b' -> sized n b c -> sized n b' c.
Proof. intros L (S & A & B & C). repeat split; try apply S; try (eapply upto_impl; eassumption). lia. Qed.
Lemma upto_zero n b : 0 <= b -> upto b (view_zero n).
Proof. intros H. unfold view_zero. induction n; cbn; constructor; auto. Qed.
Lemma sized_zero n b : 0 <= b -> sized n b (typed_zero n).
Proof. intros H. split; [apply shaped_zero|]. split; [apply upto_zero, H|]. split; [apply upto_zero, H|exact H]. Qed.
Lemma sized_neg n b a : sized n b a -> b < M -> exists c, t_neg a = Ok c /\ sized n b c.
Proof.
  intros ([A1 A2] & U1 & U2 & U3) Hb. unfold t_neg, view_neg.
  destruct (map_checked_ok Z.opp b (t_lv a)) as (l & -> & Ul & Ll); [revert U1; apply List.Forall_impl; intros; lia|exact Hb|]. cbn [rbind].
  destruct (map_checked_ok Z.opp b (t_nv a)) as (v & -> & Uv & Lv); [revert U2; apply List.Forall_impl; intros; lia|exact Hb|]. cbn [rbind].
  rewrite checked_ok by lia. eexists. split; [reflexivity|]. split; [split; cbn; congruence|]. repeat split; cbn; try assumption. lia.
Qed.
Lemma sized_mul n b a k : sized n b a -> b * Z.abs k < M -> exists c, t_mul_int a k = Ok c /\ sized n (b * Z.abs k) c.
Proof.
  intros ([A1 A2] & U1 & U2 & U3) Hb. unfold t_mul_int, view_mul. assert (G : forall x, Z.abs x <= b -> Z.abs (x * k) <= b * Z.abs k) by (intros; nia).
  destruct (map_checked_ok (fun x => x * k) (b * Z.abs k) (t_lv a)) as (l & -> & Ul & Ll); [revert U1; apply List.Forall_impl; auto|exact Hb|]. cbn [rbind].
  destruct (map_checked_ok (fun x => x * k) (b * Z.abs k) (t_nv a)) as (v & -> & Uv & Lv); [revert U2; apply List.Forall_impl; auto|exact Hb|]. cbn [rbind].
  pose proof (G _ U3). rewrite checked_ok by lia. eexists. split; [reflexivity|]. split; [split; cbn; congruence|]. repeat split; cbn; try assumption.
Qed.
Lemma sized_add n b1 b2 a c : sized n b1 a -> sized n b2 c -> b1 + b2 < M -> exists d, t_add a c = Ok d /\ sized n (b1 + b2) d.
Proof.
  intros ([A1 A2] & U1 & U2 & U3) ([C1 C2] & V1 & V2 & V3) Hb. unfold t_add, view_add.
  destruct (zip_checked_ok Z.add (b1 + b2) b1 b2 ltac:(intros; lia) Hb (t_lv a) (t_lv c)) as (l & -> & Ul & Ll); [assumption|assumption|congruence|]. cbn [rbind].
  destruct (zip_checked_ok Z.add (b1 + b2) b1 b2 ltac:(intros; lia) Hb (t_nv a) (t_nv c)) as (v & -> & Uv & Lv); [assumption|assumption|congruence|]. cbn [rbind].
  rewrite checked_ok by lia. eexists. split; [reflexivity|]. split; [split; cbn; congruence|]. repeat split; cbn; try assumption. lia.
Qed.
Lemma sized_sub n b1 b2 a c : sized n b1 a -> sized n b2 c -> b1 + b2 < M -> exists d, t_sub a c = Ok d /\ sized n (b1 + b2) d.
Proof.
  intros ([A1 A2] & U1 & U2 & U3) ([C1 C2] & V1 & V2 & V3) Hb. unfold t_sub, view_sub.
  destruct (zip_checked_ok Z.sub (b1 + b2) b1 b2 ltac:(intros; lia) Hb (t_lv a) (t_lv c)) as (l & -> & Ul & Ll); [assumption|assumption|congruence|]. cbn [rbind].
  destruct (zip_checked_ok Z.sub (b1 + b2) b1 b2 ltac:(intros; lia) Hb (t_nv a) (t_nv c)) as (v & -> & Uv & Lv); [assumption|assumption|congruence|]. cbn [rbind].
  rewrite checked_ok by lia. eexists. split; [reflexivity|]. split; [split; cbn; congruence|]. repeat split; cbn; try assumption. lia.
Qed.
Lemma sized_nonneg n b c : sized n b c -> 0 <= b.
Proof. intros (_ & _ & _ & H). lia. Qed.
Lemma sized_add_int n b a k : sized n b a -> b + Z.abs k < M -> exists c, t_add_int a k = Ok c /\ sized n (b + Z.abs k) c.
Proof.
  intros (S & U1 & U2 & U3) Hb. unfold t_add_int. rewrite checked_ok by lia. eexists. split; [reflexivity|]. split; [exact S|]. repeat split; cbn; try (eapply upto_impl; [|eassumption]; lia). lia.
Qed.
Lemma sized_sub_int n b a k : sized n b a -> b + Z.abs k < M -> exists c, t_sub_int a k = Ok c /\ sized n (b + Z.abs k) c.
Proof.
  intros (S & U1 & U2 & U3) Hb. unfold t_sub_int. rewrite checked_ok by lia. eexists. split; [reflexivity|]. split; [exact S|]. repeat split; cbn; try (eapply upto_impl; [|eassumption]; lia). lia.
Qed.
Lemma sized_int_sub n b a k : sized n b a -> b + Z.abs k < M -> exists c, int_t_sub k a = Ok c /\ sized n (b + Z.abs k) c.
Proof. intros S Hb. unfold int_t_sub. destruct (sized_neg n b a S) as (m & -> & Sm); [lia|]. cbn. apply sized_add_int; assumption. Qed.
Lemma sized_sum n l bs : Forall2 (sized n) bs l -> forall b0 acc, sized n b0 acc -> b0 + fold_right Z.add 0 bs < M -> exists c, t_sum_from acc l = Ok c /\ sized n (b0 + fold_right Z.add 0 bs) c.
Proof.
  induction 1 as [|b c bs l Hc Hl IH]; intros b0 acc Ha Hb; cbn [fold_right t_sum_from] in *; [exists acc; split; [reflexivity|]; eapply sized_impl; [|exact Ha]; lia|].
  assert (0 <= fold_right Z.add 0 bs). { clear - Hl. induction Hl as [|b c bs l Hc _ IH]; cbn; [lia|]. apply sized_nonneg in Hc. lia. }
  destruct (sized_add n b0 b acc c Ha Hc) as (a & -> & Sa); [lia|]. cbn [rbind]. rewrite Z.add_assoc. apply IH; [exact Sa|lia].
Qed.
Lemma bound_reduce_nonneg bs a : 0 <= a -> Forall (fun b => 0 <= b) bs -> 0 <= bound_reduce bs a.
Proof. intros Ha. induction 1; cbn; nia. Qed.
Lemma sized_reduce n l bs alpha : Forall2 (sized n) bs l -> Forall (fun b => b < M) bs -> bound_reduce bs (Z.abs alpha) < M ->
  exists c, t_reduce n l alpha = Ok c /\ sized n (bound_reduce bs (Z.abs alpha)) c.
Proof.
  induction 1 as [|b c bs l Hc Hl IH]; intros HM Hb; cbn [bound_reduce t_reduce] in *; [exists (typed_zero n); split; [reflexivity|apply sized_zero; lia]|].
  inversion HM as [|? ? Mb HM']; subst. assert (Nb : Forall (fun b => 0 <= b) bs). { clear - Hl. induction Hl as [|b c bs l Hc _ IH]; constructor; [apply sized_nonneg in Hc; exact Hc|exact IH]. }
  pose proof (bound_reduce_nonneg bs (Z.abs alpha) ltac:(lia) Nb) as Nr. pose proof (sized_nonneg _ _ _ Hc) as N0.
  assert (Hr : bound_reduce bs (Z.abs alpha) < M).
  { destruct (decide (Z.abs alpha = 0)) as [->|]; [|nia]. destruct bs as [|b' bs]; cbn; [lia|]. inversion HM'; lia. }
  destruct (IH HM' Hr) as (a & -> & Sa). cbn [rbind]. destruct (sized_mul n _ a alpha Sa) as (m & -> & Sm); [lia|]. cbn [rbind].
  apply sized_add; [exact Sm|exact Hc|exact Hb].
Qed.
Fixpoint scaled_bounds (k : Z) (bs : list Z) : list Z := match bs with [] => [] | b :: bs => b * k :: scaled_bounds (k + 1) bs end.
Lemma scaled_total bs : forall k, fold_right Z.add 0 (scaled_bounds k bs) = bound_ascending k bs.
Proof. induction bs as [|b bs IH]; intros k; cbn; [reflexivity|]. rewrite IH. reflexivity. Qed.
Lemma bound_ascending_nonneg bs : forall k, 0 <= k -> Forall (fun b => 0 <= b) bs -> 0 <= bound_ascending k bs.
Proof. induction bs as [|b bs IH]; intros k Hk H; cbn; [lia|]. inversion H; subst. specialize (IH (k + 1) ltac:(lia) ltac:(assumption)). nia. Qed.
Lemma sized_scaled n l bs : Forall2 (sized n) bs l -> forall k, 0 <= k -> bound_ascending k bs < M -> exists ms, t_scaled k l = Ok ms /\ Forall2 (sized n) (scaled_bounds k bs) ms.
Proof.
  induction 1 as [|b c bs l Hc Hl IH]; intros k Hk Hb; cbn [bound_ascending t_scaled scaled_bounds] in *; [exists []; split; [reflexivity|constructor]|].
  assert (Nb : Forall (fun b => 0 <= b) bs). { clear - Hl. induction Hl as [|b c bs l Hc _ IH]; constructor; [apply sized_nonneg in Hc; exact Hc|exact IH]. }
  pose proof (bound_ascending_nonneg bs (k + 1) ltac:(lia) Nb) as Nr. pose proof (sized_nonneg _ _ _ Hc) as N0.
  assert (Ak : Z.abs k = k) by lia. destruct (sized_mul n b c k Hc) as (m & -> & Sm); [rewrite Ak; lia|]. cbn [rbind]. rewrite Ak in Sm.
  destruct (IH (k + 1)) as (ms & -> & Sms); [lia|nia|]. eexists. split; [reflexivity|]. constructor; assumption.
Qed.
Lemma sized_at n cs bs i : Forall2 (sized n) bs cs -> sized n (b_at bs i) (t_at n cs i).
Proof. intros H. unfold t_at, b_at. revert i. induction H as [|b c bs cs Hc _ IH]; intros [|i]; cbn; auto; apply sized_zero; lia. Qed.
Lemma sized_ats n cs bs is : Forall2 (sized n) bs cs -> Forall2 (sized n) (map (b_at bs) is) (map (t_at n cs) is).
Proof. intros H. induction is as [|i is IH]; cbn; constructor; auto using sized_at. Qed.
Lemma b_at_small bs i : Forall (fun b => b < M) bs -> b_at bs i < M.
Proof. intros H. unfold b_at. revert i. induction H; intros [|i]; cbn; auto; lia. Qed.
Lemma sized_step n cs bs c : Forall2 (sized n) bs cs -> Forall (fun b => b < M) bs -> t_bound c bs < M -> exists x, t_step n cs c = Ok x /\ sized n (t_bound c bs) x.
Proof.
  intros H HM Hb. destruct c; cbn [t_step t_bound] in *.
  - eexists. split; [reflexivity|]. split; [split; cbn; rewrite ?insert_length; apply repeat_length|]. repeat split; cbn; try apply upto_zero; try lia.
    apply Forall_insert; [apply upto_zero; lia|lia].
  - eexists. split; [reflexivity|]. split; [apply (shaped_zero n)|]. repeat split; cbn; try apply upto_zero; lia.
  - eexists. split; [reflexivity|]. destruct (sized_at n cs bs i H) as (S & A & B & C). split; [apply shaped_flip, S|]. repeat split; assumption.
  - destruct (sized_at n cs bs i H) as (S & A & B & C). replace (2 * b_at bs i) with (b_at bs i + b_at bs i) in * by lia.
    apply sized_sub; [split; [apply shaped_flip, S|]; repeat split; assumption|split; [exact S|]; repeat split; assumption|exact Hb].
  - apply sized_neg; [apply sized_at, H|exact Hb].
  - apply (sized_int_sub n _ _ 1); [apply sized_at, H|exact Hb].
  - apply sized_add; [apply sized_at, H|apply sized_at, H|exact Hb].
  - apply sized_sub; [apply sized_at, H|apply sized_at, H|exact Hb].
  - apply sized_add_int; [apply sized_at, H|exact Hb].
  - apply sized_sub_int; [apply sized_at, H|exact Hb].
  - apply sized_int_sub; [apply sized_at, H|exact Hb].
  - apply sized_mul; [apply sized_at, H|exact Hb].
  - apply (sized_sum n _ _ (sized_ats n cs bs is H) 0); [apply sized_zero; lia|exact Hb].
  - apply sized_reduce; [apply sized_ats, H| |exact Hb]. apply List.Forall_map, List.Forall_forall. intros i _. apply b_at_small, HM.
  - unfold t_ascending. destruct (sized_scaled n _ _ (sized_ats n cs bs is H) 0) as (ms & -> & Sms); [lia|exact Hb|]. cbn [rbind].
    rewrite <- scaled_total in Hb |- *. apply (sized_sum n _ _ Sms 0); [apply sized_zero; lia|exact Hb].
Qed.
Lemma t_bounds_prefix p : forall bs, Forall (fun b => b < M) (t_bounds p bs) -> Forall (fun b => b < M) bs.
Proof. induction p as [|c p IH]; intros bs; cbn; [auto|]. intros H. apply IH in H. apply List.Forall_app in H. apply H. Qed.
Lemma sized_run n p : forall cs bs, Forall2 (sized n) bs cs -> Forall (fun b => b < M) (t_bounds p bs) -> exists cs', t_run n p cs = Ok cs' /\ Forall2 (sized n) (t_bounds p bs) cs'.
Proof.
  induction p as [|c p IH]; intros cs bs H HM; cbn [t_run t_bounds] in *; [exists cs; split; [reflexivity|exact H]|].
  pose proof (t_bounds_prefix _ _ HM) as HM'. apply List.Forall_app in HM' as [HM1 HM2]. inversion HM2; subst.
  destruct (sized_step n cs bs c H HM1) as (x & -> & Sx); [assumption|]. cbn [rbind]. apply IH; [|exact HM]. apply Forall2_app; [exact H|]. constructor; [exact Sx|constructor].
Qed.

(** ** The Goldilocks field and its extension *)
Definition gl : Type := { x : Z | x mod Pr = x }.
Definition mk (x : Z) : gl := exist _ (x mod Pr) (Zmod_mod x Pr).
Definition gv (x : gl) : Z := proj1_sig x.
Lemma gl_eq (a b : gl) : gv a = gv b -> a = b.
Proof. destruct a as [a Ha], b as [b Hb]. cbn. intros ->. f_equal. apply proof_irrel. Qed.
Lemma mk_gv a : mk (gv a) = a.
Proof. apply gl_eq. destruct a as [a Ha]. exact Ha. Qed.
Lemma mk_mod a b : a mod Pr = b mod Pr -> mk a = mk b.
Proof. intros. apply gl_eq. assumption. Qed.
Definition gadd (a b : gl) : gl := mk (gv a + gv b).
Definition gmul (a b : gl) : gl := mk (gv a * gv b).
Definition gneg (a : gl) : gl := mk (- gv a).
Definition gl_cells : cells gl := {| r_0 := mk 0; r_1 := mk 1; r_add := gadd; r_mul := gmul; r_neg := gneg; r_int := mk |}.
Lemma gv_mk x : gv (mk x) = x mod Pr. Proof. reflexivity. Qed.
Lemma mk_add a b : gadd (mk a) (mk b) = mk (a + b).
Proof. apply mk_mod. rewrite !gv_mk, <- Zplus_mod. reflexivity. Qed.
Lemma mk_mul a b : gmul (mk a) (mk b) = mk (a * b).
Proof. apply mk_mod. rewrite !gv_mk, <- Zmult_mod. reflexivity. Qed.
Lemma mk_neg a : gneg (mk a) = mk (- a).
Proof. apply mk_mod. rewrite gv_mk, !Z.opp_eq_mul_m1, Zmult_mod_idemp_l. reflexivity. Qed.
Lemma mk_all (Q : gl -> Prop) : (forall z, Q (mk z)) -> forall a, Q a.
Proof. intros H a. rewrite <- (mk_gv a). apply H. Qed.
Lemma gl_ring : ring_cells gl_cells.
Proof.
  constructor; [constructor|..]; cbn [r_0 r_1 r_add r_mul r_neg r_int gl_cells]; try reflexivity;
    try (intros a b; rewrite ?mk_add, ?mk_mul; reflexivity); try (intros a; rewrite ?mk_neg; reflexivity);
    repeat (refine (mk_all _ _); intro); repeat first [rewrite mk_add|rewrite mk_mul|rewrite mk_neg]; f_equal; ring.
Qed.
(** plonky2's quadratic extension of a field: X^2 = [w]; for Goldilocks [w] is 7 *)
Section Ext.
  Context {R : Type} (F : cells R) (HF : ring_cells F) (w : R).
  Notation zero := (r_0 F). Notation add := (r_add F). Notation mul := (r_mul F). Notation neg := (r_neg F).
  Let sub (a b : R) := add a (neg b).
  Let RT : ring_theory zero (r_1 F) add mul sub neg eq := rc_ring F HF.
  Add Ring RRE : RT.
  Definition ext_of : cells (R * R) := {|
    r_0 := (zero, zero); r_1 := (r_1 F, zero); r_add x y := (add (fst x) (fst y), add (snd x) (snd y));
    r_mul x y := (add (mul (fst x) (fst y)) (mul w (mul (snd x) (snd y))), add (mul (fst x) (snd y)) (mul (snd x) (fst y)));
    r_neg x := (neg (fst x), neg (snd x)); r_int k := (r_int F k, zero) |}.
  Lemma ext_ring : ring_cells ext_of.
  Proof.
    constructor; [constructor|..]; cbn [r_0 r_1 r_add r_mul r_neg r_int ext_of];
      repeat match goal with |- forall x : _ * _, _ => intros [? ?] | |- forall _, _ => intro end; cbn [fst snd];
      rewrite ?(rc_0 F HF), ?(rc_1 F HF), ?(rc_add F HF), ?(rc_mul F HF), ?(rc_neg F HF); f_equal; ring.
  Qed.
End Ext.
Definition gl2_cells : cells (gl * gl) := ext_of gl_cells (mk 7).
Lemma gl2_ring : ring_cells gl2_cells.
Proof. apply ext_ring, gl_ring. Qed.
