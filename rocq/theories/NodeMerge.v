(** Merging the event trees of two programs (transactions.rs merge_events). *)
From stdpp Require Import prelude sorting.
From Verif Require Import Field RecModel RecSpec NodeTreeModel NodeTreeSpec NodeTreeProofs NodeAddr.
Open Scope Z_scope.

Section SM.
  Context {A : Type} (ad : A -> Z).
  Notation sm := (smerge ad).
  Lemma sm_nil_l l : sm [] l = l. Proof. destruct l; auto. Qed.
  Lemma sm_nil_r l : sm l [] = l. Proof. destruct l; auto. Qed.
  Lemma sm_cons x l y r : sm (x :: l) (y :: r) = if ad x <=? ad y then x :: sm l (y :: r) else y :: sm (x :: l) r.
  Proof. reflexivity. Qed.
  Lemma sm_split c a1 b1 a2 b2 : Forall (fun x => ad x < c) a1 -> Forall (fun x => c <= ad x) b1 ->
    Forall (fun x => ad x < c) a2 -> Forall (fun x => c <= ad x) b2 -> sm (a1 ++ b1) (a2 ++ b2) = sm a1 a2 ++ sm b1 b2.
  Proof.
    intros F1 G1. revert a2. induction a1 as [|x a1 IH]; intros a2 F2 G2.
    - cbn [app]. rewrite sm_nil_l. induction a2 as [|y a2 IH2]; [auto|]. inversion F2; subst. cbn [app]. destruct b1 as [|z b1].
      + rewrite !sm_nil_l. auto.
      + rewrite sm_cons. inversion G1; subst. replace (ad z <=? ad y) with false by (symmetry; apply Z.leb_gt; lia). rewrite IH2; auto.
    - inversion F1; subst. induction a2 as [|y a2 IH2].
      + rewrite sm_nil_r. cbn [app]. destruct b2 as [|z b2]; [rewrite !sm_nil_r; auto|]. rewrite sm_cons. inversion G2; subst.
        replace (ad x <=? ad z) with true by (symmetry; apply Z.leb_le; lia). cbn [app]. f_equal. specialize (IH ltac:(auto) []). cbn [app] in IH.
        rewrite IH, sm_nil_r by auto. auto.
      + cbn [app]. rewrite !sm_cons. inversion F2; subst. destruct (ad x <=? ad y).
        * cbn [app]. f_equal. apply (IH ltac:(auto) (y :: a2)); auto.
        * cbn [app]. f_equal. apply IH2; auto.
  Qed.
  Lemma sm_perm l1 : forall l2, sm l1 l2 ≡ₚ l1 ++ l2.
  Proof.
    induction l1 as [|x l1 IH]; intros l2; [rewrite sm_nil_l; auto|]. induction l2 as [|y l2 IH2]; [rewrite sm_nil_r, app_nil_r; auto|].
    rewrite sm_cons. destruct (ad x <=? ad y).
    - rewrite (IH (y :: l2)). auto.
    - rewrite IH2. cbn [app]. rewrite Permutation_swap. f_equiv. apply Permutation_middle.
  Qed.
  Lemma sm_Forall (Q : A -> Prop) l1 l2 : Forall Q l1 -> Forall Q l2 -> Forall Q (sm l1 l2).
  Proof. intros. rewrite sm_perm. apply List.Forall_app. auto. Qed.
  Lemma sm_before c l1 l2 : Forall (fun x => ad x < c) l1 -> Forall (fun x => c <= ad x) l2 -> sm l1 l2 = l1 ++ l2.
  Proof. intros F G. pose proof (sm_split c l1 [] [] l2 F (List.Forall_nil _) (List.Forall_nil _) G) as E. rewrite app_nil_r, sm_nil_r, sm_nil_l in E. auto. Qed.
  Lemma sm_after c l1 l2 : Forall (fun x => ad x < c) l2 -> Forall (fun x => c <= ad x) l1 -> sm l1 l2 = l2 ++ l1.
  Proof. intros F G. pose proof (sm_split c [] l1 l2 [] (List.Forall_nil _) G F (List.Forall_nil _)) as E. cbn [app] in E. rewrite app_nil_r, sm_nil_r, sm_nil_l in E. auto. Qed.
End SM.

(** the common ancestor of disjoint ranges splits them *)
Lemma above_range z x v : ba_ok x -> above z x -> lo x <= v < hi x -> v / 2 ^ ba_h z = ba_a z.
Proof.
  intros (Hx & Bx) (L & E) R. unfold lo, hi in R.
  assert (Ev : v / 2 ^ ba_h x = ba_a x). { pose proof (Z.pow_pos_nonneg 2 (ba_h x) ltac:(lia) Hx). symmetry. apply (Z.div_unique v _ _ (v - ba_a x * 2 ^ ba_h x)); [left|]; lia. }
  rewrite <- Ev in E. rewrite div_pow2_add in E by lia. replace (ba_h x + (ba_h z - ba_h x)) with (ba_h z) in E by lia. auto.
Qed.
Definition inside (x : baddr) : Prop := ba_ok x /\ ba_h x <= 63 /\ hi x <= 2 ^ 63.
Lemma ancestor_split x y : inside x -> inside y -> hi x <= lo y \/ hi y <= lo x ->
  exists b p, common_ancestor x y = Some (BA (b + 1) p) /\ 0 <= b /\ 0 <= p /\
    ((hi x <= lo y /\ (forall v, lo x <= v < hi x -> v / 2 ^ b = 2 * p) /\ (forall v, lo y <= v < hi y -> v / 2 ^ b = 2 * p + 1)) \/
     (hi y <= lo x /\ (forall v, lo x <= v < hi x -> v / 2 ^ b = 2 * p + 1) /\ (forall v, lo y <= v < hi y -> v / 2 ^ b = 2 * p))).
Proof.
  intros (Ox & Hx & Ix) (Oy & Hy & Iy) Dj. pose proof (lo_lt_hi x Ox) as Lx. pose proof (lo_lt_hi y Oy) as Ly.
  destruct (ancestor_ok x y Ox Oy) as (An & _). { destruct Ox as (A1 & _), Oy as (A2 & _). lia. }
  assert (Sm : forall x h, ba_ok x -> hi x <= 2 ^ 63 -> ba_h x <= h -> 0 <= ba_a x / 2 ^ (h - ba_h x) /\ ba_a x / 2 ^ (h - ba_h x) / 2 ^ 63 = 0).
  { clear. intros x h (O1 & O2) I L. assert (S : 0 <= ba_a x < 2 ^ 63). { unfold hi in I. pose proof (Z.pow_pos_nonneg 2 (ba_h x)). split; [lia|]. nia. }
    pose proof (Z.pow_pos_nonneg 2 (h - ba_h x) ltac:(lia) ltac:(lia)). split; [apply Z.div_pos; lia|].
    apply Z.div_small. split; [apply Z.div_pos; lia|]. apply Z.le_lt_trans with (ba_a x); [apply Z.div_le_upper_bound; [lia|]; nia|lia]. }
  set (h := Z.max (ba_h x) (ba_h y)) in *. cbn zeta in An. destruct (Sm x h Ox Ix) as (S1 & S2); [clear; lia|]. destruct (Sm y h Oy Iy) as (S3 & S4); [clear; lia|]. clear Sm.
  destruct An as (z & Ez & Zx & Zy & Zm).
  { assert (B : bitlen (Z.lxor (ba_a x / 2 ^ (h - ba_h x)) (ba_a y / 2 ^ (h - ba_h y))) <= 63) by (apply bitlen_xor; [auto|auto|lia|congruence]).
    clear -B. lia. }
  assert (Hzx := proj1 Zx). assert (Hzy := proj1 Zy).
  assert (Vx : lo x <= lo x < hi x) by lia. assert (Vy : lo y <= lo y < hi y) by lia.
  pose proof (above_range z x (lo x) Ox Zx Vx) as Qx. pose proof (above_range z y (lo y) Oy Zy Vy) as Qy.
  assert (Nx : ba_h x < ba_h z).
  { destruct (Z.eq_dec (ba_h x) (ba_h z)) as [E|]; [exfalso|lia]. destruct Zx as (_ & Zx). rewrite E, Z.sub_diag, Z.pow_0_r, Z.div_1_r in Zx.
    assert (Hp : 0 < 2 ^ ba_h z) by (clear -Ox Hzx; destruct Ox as (Ox & _); apply Z.pow_pos_nonneg; lia). 
    assert (Hh : lo x = ba_a z * 2 ^ ba_h z /\ hi x = (ba_a z + 1) * 2 ^ ba_h z) by (unfold lo, hi; rewrite E, Zx; auto). destruct Hh as (Hl & Hh).
    clear -Dj Qy Ly Hp Hl Hh. pose proof (Z.div_mod (lo y) (2 ^ ba_h z) ltac:(lia)) as DM.
    pose proof (Z.mod_pos_bound (lo y) (2 ^ ba_h z) Hp). rewrite Qy in DM. nia. }
  assert (Ny : ba_h y < ba_h z).
  { destruct (Z.eq_dec (ba_h y) (ba_h z)) as [E|]; [exfalso|lia]. destruct Zy as (_ & Zy). rewrite E, Z.sub_diag, Z.pow_0_r, Z.div_1_r in Zy.
    assert (Hp : 0 < 2 ^ ba_h z) by (clear -Oy Hzy; destruct Oy as (Oy & _); apply Z.pow_pos_nonneg; lia). 
    assert (Hh : lo y = ba_a z * 2 ^ ba_h z /\ hi y = (ba_a z + 1) * 2 ^ ba_h z) by (unfold lo, hi; rewrite E, Zy; auto). destruct Hh as (Hl & Hh).
    clear -Dj Qx Lx Hp Hl Hh. pose proof (Z.div_mod (lo x) (2 ^ ba_h z) ltac:(lia)) as DM.
    pose proof (Z.mod_pos_bound (lo x) (2 ^ ba_h z) Hp). rewrite Qx in DM. nia. }
  clear S1 S2 S3 S4 Qx Qy. set (b := ba_h z - 1). exists b, (ba_a z).
  assert (Pb : 0 <= b) by (destruct Ox as (? & _); lia).
  set (wx := BA b (ba_a x / 2 ^ (b - ba_h x))). set (wy := BA b (ba_a y / 2 ^ (b - ba_h y))).
  assert (Ax : above wx x) by (split; cbn; [lia|auto]). assert (Ay : above wy y) by (split; cbn; [lia|auto]).
  assert (Up : forall q, q / 2 = ba_a z -> q = 2 * ba_a z \/ q = 2 * ba_a z + 1).
  { clear. intros q E. pose proof (Z.div_mod q 2 ltac:(lia)). pose proof (Z.mod_pos_bound q 2 ltac:(lia)). lia. }
  assert (Wx : ba_a wx / 2 = ba_a z). { destruct Zx as (_ & Zx). subst wx wy. cbn [ba_a]. pose proof (div_pow2_add (ba_a x) (b - ba_h x) 1 ltac:(clear -Nx; subst b; lia) ltac:(clear; lia)) as DD. rewrite Z.pow_1_r in DD. rewrite DD. rewrite <- Zx. f_equal. f_equal. subst b. clear. lia. }
  assert (Wy : ba_a wy / 2 = ba_a z). { destruct Zy as (_ & Zy). subst wx wy. cbn [ba_a]. pose proof (div_pow2_add (ba_a y) (b - ba_h y) 1 ltac:(clear -Ny; subst b; lia) ltac:(clear; lia)) as DD. rewrite Z.pow_1_r in DD. rewrite DD. rewrite <- Zy. f_equal. f_equal. subst b. clear. lia. }
  assert (Wn : ba_a wx <> ba_a wy). { intros E. assert (E' : wx = wy) by (unfold wx, wy in *; cbn in E; congruence). specialize (Zm wx Ax ltac:(rewrite E'; auto)). destruct Zm as (Zm & _). cbn in Zm. lia. }
  pose proof (fun v => above_range wx x v Ox Ax) as Rx. pose proof (fun v => above_range wy y v Oy Ay) as Ry. change (ba_h wx) with b in Rx. change (ba_h wy) with b in Ry.
  assert (Pz : 0 <= ba_a z). { rewrite <- Wx. apply Z.div_pos; [|lia]. destruct Ox as (? & ?). cbn. apply Z.div_pos; [lia|apply Z.pow_pos_nonneg; lia]. }
  split; [rewrite Ez; destruct z as [hz az]; unfold b; cbn; repeat f_equal; lia|]. split; [auto|]. split; [auto|].
  specialize (Rx (lo x)) as Rx0. specialize (Ry (lo y)) as Ry0. specialize (Rx0 Vx). specialize (Ry0 Vy).
  assert (Mono : forall u v, u <= v -> u / 2 ^ b <= v / 2 ^ b) by (intros; apply Z.div_le_mono; [apply Z.pow_pos_nonneg; lia|auto]).
  destruct (Up _ Wx) as [Ux|Ux], (Up _ Wy) as [Uy|Uy]; try congruence.
  - left. split; [|split; intros v Rv; [rewrite <- Ux|rewrite <- Uy]; auto]. destruct Dj as [|Dj]; [auto|]. exfalso. specialize (Mono (lo y) (lo x) ltac:(clear -Dj Lx Ly; lia)). clear -Mono Rx0 Ry0 Ux Uy. lia.
  - right. split; [|split; intros v Rv; [rewrite <- Ux|rewrite <- Uy]; auto]. destruct Dj as [Dj|]; [|auto]. exfalso. specialize (Mono (lo x) (lo y) ltac:(clear -Dj Lx Ly; lia)). clear -Mono Rx0 Ry0 Ux Uy. lia.
Qed.

Section Merge.
  Context {E : Type} (H : list Z -> dig).
  Hypothesis H_ok : forall l, dig_ok (H l).
  Notation ev := (dig * Z * E)%type.
  (** trees with at most one event per address, below 2^63 *)
  Inductive STree : list ev -> enode E -> Prop :=
  | SLeaf x : 0 <= ev_ad x < 2 ^ 63 -> dig_ok (ev_hs x) -> STree [x] (ev_leaf x)
  | SSplit l1 l2 b p t1 t2 : 0 <= b -> 0 <= p -> Forall (fun x => ev_ad x / 2 ^ b = 2 * p) l1 -> Forall (fun x => ev_ad x / 2 ^ b = 2 * p + 1) l2 ->
      STree l1 t1 -> STree l2 t2 -> STree (l1 ++ l2) (ev_node H (BA (b + 1) p) t1 t2).
  Lemma STree_nonempty l t : STree l t -> exists x r, l = x :: r.
  Proof. induction 1 as [x R D|l1 l2 b p t1 t2 B P F1 F2 T1 IH1 T2 IH2]; [eauto|]. destruct IH1 as (x & r & ->). cbn. eauto. Qed.
  Lemma STree_hash l t : STree l t -> dig_ok (en_hash t).
  Proof. destruct 1 as [[[h a] e] R D|]; cbn; auto. apply H_ok. Qed.
  Lemma STree_small l t : STree l t -> Forall (fun x => 0 <= ev_ad x < 2 ^ 63) l.
  Proof. induction 1; [auto|]. apply List.Forall_app. auto. Qed.
  Lemma range_div v b q : 0 <= b -> v / 2 ^ b = q <-> q * 2 ^ b <= v < (q + 1) * 2 ^ b.
  Proof.
    intros B. pose proof (Z.pow_pos_nonneg 2 b ltac:(lia) B). split.
    - intros <-. pose proof (Z.div_mod v (2 ^ b) ltac:(lia)). pose proof (Z.mod_pos_bound v (2 ^ b)). nia.
    - intros R. symmetry. apply (Z.div_unique v (2 ^ b) q (v - q * 2 ^ b)); [left|]; lia.
  Qed.
  Lemma half b p : 0 <= b -> mid (BA (b + 1) p) = (2 * p + 1) * 2 ^ b /\ lo (BA (b + 1) p) = 2 * p * 2 ^ b /\ hi (BA (b + 1) p) = (2 * p + 2) * 2 ^ b.
  Proof.
    intros B. unfold mid, lo, hi. cbn [ba_h ba_a]. replace (b + 1 - 1) with b by lia. rewrite Z.pow_add_r by lia. change (2 ^ 1) with 2. lia.
  Qed.
  Lemma STree_addr l t : STree l t -> inside (en_addr t) /\ Forall (fun x => lo (en_addr t) <= ev_ad x < hi (en_addr t)) l.
  Proof.
    intros T. pose proof (STree_small l t T) as Sm. destruct T as [[[h a] e] R D|l1 l2 b p t1 t2 B P F1 F2 T1 T2].
    - cbn in R. unfold inside, ba_ok, lo, hi. cbn [ev_leaf en_addr base ba_h ba_a]. change (2 ^ 0) with 1. rewrite !Z.mul_1_r. split; [lia|]. constructor; [cbn; lia|auto].
    - cbn [ev_node en_addr]. destruct (half b p B) as (Em & El & Eh). rewrite El, Eh.
      pose proof (Z.pow_pos_nonneg 2 b ltac:(lia) B) as Pb.
      assert (Fr : Forall (fun x => 2 * p * 2 ^ b <= ev_ad x < (2 * p + 2) * 2 ^ b) (l1 ++ l2)).
      { apply List.Forall_app. split; (eapply Forall_impl; [|eassumption]); intros x Ex; apply range_div in Ex; auto; lia. }
      split; [|auto].
      destruct (STree_nonempty _ _ T2) as (x & r & ->). inversion F2 as [|? ? Fx _]; subst. apply range_div in Fx; auto.
      apply List.Forall_app in Sm as (_ & Sm). inversion Sm as [|? ? Sx _]; subst.
      assert (Lb : b <= 62). { destruct (Z.le_gt_cases b 62); [auto|]. assert (2 ^ 63 <= 2 ^ b) by (apply Z.pow_le_mono_r; lia). nia. }
      assert (Eq : 2 ^ 63 = 2 ^ (63 - b) * 2 ^ b) by (rewrite <- Z.pow_add_r by lia; f_equal; lia).
      assert (Ep : 2 ^ (63 - b) = 2 * 2 ^ (62 - b)) by (rewrite <- Z.pow_succ_r by lia; f_equal; lia).
      assert (Up : 2 * p + 2 <= 2 ^ (63 - b)). { assert ((2 * p + 1) * 2 ^ b < 2 ^ (63 - b) * 2 ^ b) by lia. assert (2 * p + 1 < 2 ^ (63 - b)) by nia. lia. }
      unfold inside, ba_ok. rewrite Eh. cbn [ba_h ba_a]. split; [split; [lia|]|split; [lia|]].
      + split; [lia|]. assert (2 ^ (63 - b) <= 2 ^ 63) by (apply Z.pow_le_mono_r; lia). assert (2 ^ 64 = 2 * 2 ^ 63) by reflexivity. lia.
      + rewrite Eq. apply Z.mul_le_mono_nonneg_r; lia.
  Qed.
  Lemma STree_ETree l t : STree l t -> ETree H l t.
  Proof.
    induction 1 as [x R D|l1 l2 b p t1 t2 B P F1 F2 T1 IH1 T2 IH2].
    - apply (EBucket H [x] (ev_ad x)); [lia|auto|constructor].
    - apply ESplit; auto.
  Qed.
  Lemma ETree_STree l t : ETree H l t -> distinct_addrs l -> ev_ok l -> STree l t.
  Proof.
    induction 1 as [l a t Ba F R|l1 l2 b p t1 t2 B F1 F2 T1 IH1 T2 IH2]; intros D O.
    - destruct l as [|x [|y l]]; [inversion R| |].
      + inversion R; subst. inversion O as [|? ? (O1 & O2) _]; subst. constructor; auto.
      + exfalso. unfold distinct_addrs in D. cbn in D. inversion D as [|? ? N _]; subst. apply N. left.
        inversion F as [|? ? E1 F']; subst. inversion F' as [|? ? E2 _]; subst. auto.
    - unfold distinct_addrs in D. rewrite map_app in D. apply List.Forall_app in O as (O1 & O2).
      assert (distinct_addrs l1) by (apply NoDup_ListNoDup, NoDup_app in D; apply NoDup_ListNoDup, D). assert (distinct_addrs l2) by (apply NoDup_ListNoDup, NoDup_app in D; apply NoDup_ListNoDup, D).
      assert (S1 : STree l1 t1) by (apply IH1; auto). assert (S2 : STree l2 t2) by (apply IH2; auto).
      apply SSplit; auto. destruct (STree_nonempty _ _ S1) as (x & r & ->). inversion F1 as [|? ? E1 _]; subst. 
      apply List.Forall_inv in O1 as (O1 & _). pose proof (Z.div_pos (ev_ad x) (2 ^ b) ltac:(lia) ltac:(apply Z.pow_pos_nonneg; lia)). lia.
  Qed.

  (** the merge provers *)
  Lemma dadd0_l d : dig_ok d -> dadd dzero d = d.
  Proof. destruct d as [a b c e]. intros (A & B & C & D). unfold dadd, fadd, canon in *. cbn in *. rewrite !Z.mod_small by auto. auto. Qed.
  Lemma dadd0_r d : dig_ok d -> dadd d dzero = d.
  Proof. destruct d as [a b c e]. intros (A & B & C & D). unfold dadd, fadd, canon in *. cbn in *. rewrite !Z.add_0_r, !Z.mod_small by auto. auto. Qed.
  Lemma leaf_both a b : mg_leaf_prove H (Some a) (Some b) = MgPi true a true b true (f2to1 H a b). Proof. reflexivity. Qed.
  Lemma leaf_left a : dig_ok a -> mg_leaf_prove H (Some a) None = MgPi true a false dzero true a.
  Proof. intros O. unfold mg_leaf_prove. cbn. rewrite dadd0_r by auto. auto. Qed.
  Lemma leaf_right b : dig_ok b -> mg_leaf_prove H None (Some b) = MgPi false dzero true b true b.
  Proof. intros O. unfold mg_leaf_prove. cbn. rewrite dadd0_l by auto. auto. Qed.

  Lemma simple_ok l1 l2 t1 t2 : STree l1 t1 -> STree l2 t2 -> hi (en_addr t1) <= lo (en_addr t2) ->
    exists p t, simple_merge H t1 t2 = Some (p, t) /\ STree (l1 ++ l2) t /\ merge_states p (en_hash t1) (en_hash t2) (en_hash t).
  Proof.
    intros T1 T2 D. destruct (STree_addr _ _ T1) as (I1 & R1), (STree_addr _ _ T2) as (I2 & R2).
    destruct (ancestor_split _ _ I1 I2 (or_introl D)) as (b & p & Ez & B & P & [(_ & V1 & V2)|(D' & _)]).
    2: { destruct I1 as (O1 & _), I2 as (O2 & _). pose proof (lo_lt_hi _ O1). pose proof (lo_lt_hi _ O2). lia. }
    unfold simple_merge. rewrite Ez, leaf_both. cbn [mg_m]. rewrite bool_decide_eq_true_2 by auto. eexists _, _. split; [reflexivity|].
    split; [|reflexivity]. apply (SSplit l1 l2 b p t1 t2); auto; (eapply Forall_impl; [|eassumption]); intros x Rx; auto.
  Qed.
  Lemma reverse_ok l1 l2 t1 t2 : STree l1 t1 -> STree l2 t2 -> hi (en_addr t2) <= lo (en_addr t1) ->
    exists p t, simple_merge_reverse H t1 t2 = Some (p, t) /\ STree (l2 ++ l1) t /\ merge_states p (en_hash t1) (en_hash t2) (en_hash t).
  Proof.
    intros T1 T2 D. destruct (STree_addr _ _ T1) as (I1 & R1), (STree_addr _ _ T2) as (I2 & R2).
    destruct (ancestor_split _ _ I1 I2 (or_intror D)) as (b & p & Ez & B & P & [(D' & _)|(_ & V1 & V2)]).
    1: { destruct I1 as (O1 & _), I2 as (O2 & _). pose proof (lo_lt_hi _ O1). pose proof (lo_lt_hi _ O2). lia. }
    unfold simple_merge_reverse. pose proof (STree_hash _ _ T1) as K1. pose proof (STree_hash _ _ T2) as K2.
    rewrite Ez, leaf_left, leaf_right by auto. unfold mg_branch_prove. cbn [mg_m mg_ap mg_a mg_bp mg_b mg_mp orb hofw andb].
    rewrite bool_decide_eq_true_2 by auto. rewrite dadd0_l, dadd0_r by auto. eexists _, _. split; [reflexivity|].
    split; [|reflexivity]. apply (SSplit l2 l1 b p t2 t1); auto; (eapply Forall_impl; [|eassumption]); intros x Rx; auto.
  Qed.
  Lemma below_above (l : list ev) x c : Forall (fun v => lo x <= ev_ad v < hi x) l -> (hi x <= c -> Forall (fun v => ev_ad v < c) l) /\ (c <= lo x -> Forall (fun v => c <= ev_ad v) l).
  Proof. intros F. split; intros L; (eapply Forall_impl; [|exact F]); intros v R; cbn in R; lia. Qed.
  Lemma below_half (l : list ev) b p : 0 <= b -> Forall (fun x => ev_ad x / 2 ^ b = 2 * p) l -> Forall (fun v => ev_ad v < mid (BA (b + 1) p)) l.
  Proof. intros B F. destruct (half b p B) as (-> & _). eapply Forall_impl; [|exact F]. intros v Ev. apply range_div in Ev; auto. lia. Qed.
  Lemma above_half (l : list ev) b p : 0 <= b -> Forall (fun x => ev_ad x / 2 ^ b = 2 * p + 1) l -> Forall (fun v => mid (BA (b + 1) p) <= ev_ad v) l.
  Proof. intros B F. destruct (half b p B) as (-> & _). eapply Forall_impl; [|exact F]. intros v Ev. apply range_div in Ev; auto. lia. Qed.
  Lemma lower_half (l : list ev) x b p : 0 <= b -> Forall (fun v => lo x <= ev_ad v < hi x) l -> lo (BA (b + 1) p) <= lo x -> hi x <= mid (BA (b + 1) p) ->
    Forall (fun v => ev_ad v / 2 ^ b = 2 * p) l.
  Proof. intros B F L1 L2. destruct (half b p B) as (E1 & E2 & E3). eapply Forall_impl; [|exact F]. intros v R. apply range_div; auto. cbn in R. lia. Qed.
  Lemma upper_half (l : list ev) x b p : 0 <= b -> Forall (fun v => lo x <= ev_ad v < hi x) l -> mid (BA (b + 1) p) <= lo x -> hi x <= hi (BA (b + 1) p) ->
    Forall (fun v => ev_ad v / 2 ^ b = 2 * p + 1) l.
  Proof. intros B F L1 L2. destruct (half b p B) as (E1 & E2 & E3). eapply Forall_impl; [|exact F]. intros v R. apply range_div; auto. cbn in R. lia. Qed.
  (** nothing is merged into an empty half *)
  Lemma split_left c l1 a2 b2 : Forall (fun x : ev => ev_ad x < c) l1 -> Forall (fun x => ev_ad x < c) a2 -> Forall (fun x => c <= ev_ad x) b2 ->
    smerge ev_ad l1 (a2 ++ b2) = smerge ev_ad l1 a2 ++ b2 /\ smerge ev_ad (a2 ++ b2) l1 = smerge ev_ad a2 l1 ++ b2.
  Proof.
    intros F1 F2 G2. split.
    - pose proof (sm_split ev_ad c l1 [] a2 b2 F1 (List.Forall_nil _) F2 G2) as Es. rewrite app_nil_r, sm_nil_l in Es. auto.
    - pose proof (sm_split ev_ad c a2 b2 l1 [] F2 G2 F1 (List.Forall_nil _)) as Es. rewrite app_nil_r, sm_nil_r in Es. auto.
  Qed.
  Lemma split_right c l1 a2 b2 : Forall (fun x : ev => c <= ev_ad x) l1 -> Forall (fun x => ev_ad x < c) a2 -> Forall (fun x => c <= ev_ad x) b2 ->
    smerge ev_ad l1 (a2 ++ b2) = a2 ++ smerge ev_ad l1 b2 /\ smerge ev_ad (a2 ++ b2) l1 = a2 ++ smerge ev_ad b2 l1.
  Proof.
    intros F1 F2 G2. split.
    - pose proof (sm_split ev_ad c [] l1 a2 b2 (List.Forall_nil _) F1 F2 G2) as Es. cbn [app] in Es. rewrite sm_nil_l in Es. auto.
    - pose proof (sm_split ev_ad c a2 b2 [] l1 F2 G2 (List.Forall_nil _) F1) as Es. cbn [app] in Es. rewrite sm_nil_r in Es. auto.
  Qed.
  (** the merged tree: as a strict tree except where both have an event at one address *)
  Inductive MTree : list ev -> enode E -> Prop :=
  | MLeaf x : 0 <= ev_ad x < 2 ^ 63 -> MTree [x] (ev_leaf x)
  | MPair x y : 0 <= ev_ad x < 2 ^ 63 -> ev_ad x = ev_ad y -> MTree [x; y] (ev_node H (base (ev_ad x)) (ev_leaf x) (ev_leaf y))
  | MSplit l1 l2 b p t1 t2 : 0 <= b -> Forall (fun x => ev_ad x / 2 ^ b = 2 * p) l1 -> Forall (fun x => ev_ad x / 2 ^ b = 2 * p + 1) l2 ->
      MTree l1 t1 -> MTree l2 t2 -> MTree (l1 ++ l2) (ev_node H (BA (b + 1) p) t1 t2).
  Lemma STree_MTree l t : STree l t -> MTree l t.
  Proof. induction 1; constructor; auto. Qed.
  Lemma MTree_ETree l t : MTree l t -> ETree H l t.
  Proof.
    induction 1 as [x R|x y R Exy|l1 l2 b p t1 t2 B F1 F2 T1 IH1 T2 IH2].
    - apply (EBucket H [x] (ev_ad x)); [lia|auto|constructor].
    - apply (EBucket H [x; y] (ev_ad x)); [lia|auto|]. repeat constructor.
    - apply ESplit; auto.
  Qed.
  Theorem merge_ok : forall fuel l1 l2 t1 t2, STree l1 t1 -> STree l2 t2 -> (esize t1 + esize t2 <= fuel)%nat ->
    exists p t, merge_events H fuel t1 t2 = Some (p, t) /\ MTree (smerge ev_ad l1 l2) t /\ merge_states p (en_hash t1) (en_hash t2) (en_hash t).
  Proof.
    induction fuel; intros l1 l2 t1 t2 T1 T2 L. { destruct t1; cbn in L; lia. }
    pose proof (STree_addr _ _ T1) as ((O1 & H1 & I1) & R1). pose proof (STree_addr _ _ T2) as ((O2 & H2 & I2) & R2).
    pose proof (STree_hash _ _ T1) as K1. pose proof (STree_hash _ _ T2) as K2.
    destruct (compare_ok _ _ O1 O2) as (c & Ec & Rc). { destruct O1 as (? & _), O2 as (? & _). lia. }
    cbn [merge_events]. rewrite Ec.
    assert (SB : hi (en_addr t1) <= lo (en_addr t2) -> exists p t, simple_merge H t1 t2 = Some (p, t) /\ MTree (smerge ev_ad l1 l2) t /\ merge_states p (en_hash t1) (en_hash t2) (en_hash t)).
    { intros D. destruct (simple_ok _ _ _ _ T1 T2 D) as (p & t & E1 & S & M). exists p, t. split; [auto|]. split; [|auto].
      rewrite (sm_before ev_ad (lo (en_addr t2))); [apply STree_MTree; auto|apply (below_above _ _ _ R1); auto|apply (below_above _ _ _ R2); lia]. }
    assert (SR : hi (en_addr t2) <= lo (en_addr t1) -> exists p t, simple_merge_reverse H t1 t2 = Some (p, t) /\ MTree (smerge ev_ad l1 l2) t /\ merge_states p (en_hash t1) (en_hash t2) (en_hash t)).
    { intros D. destruct (reverse_ok _ _ _ _ T1 T2 D) as (p & t & E1 & S & M). exists p, t. split; [auto|]. split; [|auto].
      rewrite (sm_after ev_ad (lo (en_addr t1))); [apply STree_MTree; auto|apply (below_above _ _ _ R2); auto|apply (below_above _ _ _ R1); lia]. }
    assert (Sib : ba_h (en_addr t1) = ba_h (en_addr t2) /\ ba_a (en_addr t2) = ba_a (en_addr t1) + 1 -> hi (en_addr t1) <= lo (en_addr t2)).
    { intros (E1 & E2). unfold hi, lo. rewrite E1, E2. lia. }
    assert (Sib' : ba_h (en_addr t1) = ba_h (en_addr t2) /\ ba_a (en_addr t1) = ba_a (en_addr t2) + 1 -> hi (en_addr t2) <= lo (en_addr t1)).
    { intros (E1 & E2). unfold hi, lo. rewrite E1, E2. lia. }
    inversion T1 as [x1 Q1 D1 Ex1 Et1|l11 l12 b1 p1 t11 t12 B1 P1 F11 F12 T11 T12 El1 Et1];
    inversion T2 as [x2 Q2 D2 Ex2 Et2|l21 l22 b2 p2 t21 t22 B2 P2 F21 F22 T21 T22 El2 Et2].
    - destruct x1 as [[h1 a1] e1], x2 as [[h2 a2] e2]. subst. cbn [ev_leaf en_addr] in *.
      destruct c; cbn in Rc; try (apply SB; tauto); try (apply SR; tauto); try (apply SB, Sib; tauto); try (apply SR, Sib'; tauto); try (exfalso; lia).
      injection Rc as <-. unfold simple_merge. cbn [en_addr].
      assert (Ca : common_ancestor (base a1) (base a1) = Some (base a1)).
      { unfold common_ancestor. cbn [base ba_h ba_a]. change (Z.max 0 (0 - 0)) with 0. cbn [parent]. unfold parent. cbn [ba_h ba_a]. change (0 <? 64) with true. cbv iota.
        cbn [ba_h ba_a]. rewrite Z.shiftr_0_r, Z.lxor_nilpotent. change (bitlen 0) with 0. change (0 <? 64) with true. cbv iota. rewrite Z.shiftr_0_r, bool_decide_eq_true_2 by auto. auto. }
      rewrite Ca, leaf_both. cbn [en_hash mg_m]. rewrite bool_decide_eq_true_2 by auto. eexists _, _. split; [reflexivity|]. split; [|reflexivity].
      rewrite sm_cons. cbn [ev_ad fst snd]. rewrite Z.leb_refl, sm_nil_l. apply (MPair (h1, a1, e1) (h2, a1, e2)); auto.
    - destruct x1 as [[h1 a1] e1]. subst. cbn [ev_leaf en_addr ev_node] in *. cbn [ba_h base] in Rc.
      destruct c; cbn [relates ba_h base] in Rc; try (apply SB; tauto); try (apply SR; tauto); try (exfalso; (congruence || lia)).
      + injection Rc as Rc _. lia.
      + destruct Rc as (_ & Ra & Rb). pose proof (lower_half _ _ _ _ B2 R1 Ra Rb) as Fl.
        destruct (IHfuel [(h1, a1, e1)] l21 (EvL h1 a1 e1) t21) as (p & t & -> & M & S); [auto|auto|cbn in *; lia|]. 
        eexists _, _. split; [reflexivity|]. rewrite (proj1 (split_left _ _ _ _ (below_half _ _ _ B2 Fl) (below_half _ _ _ B2 F21) (above_half _ _ _ B2 F22))).
        pose proof (STree_hash _ _ T22) as K22. rewrite leaf_right by auto. rewrite S. unfold mg_branch_prove. cbn [mg_m mg_ap mg_a mg_bp mg_b mg_mp orb hofw andb].
        rewrite dadd0_r by auto. split; [|reflexivity]. apply (MSplit _ _ b2 p2); auto; [apply sm_Forall; auto|apply STree_MTree; auto].
      + destruct Rc as (_ & Ra & Rb). pose proof (upper_half _ _ _ _ B2 R1 Ra Rb) as Fl.
        destruct (IHfuel [(h1, a1, e1)] l22 (EvL h1 a1 e1) t22) as (p & t & -> & M & S); [auto|auto|cbn in *; lia|]. 
        eexists _, _. split; [reflexivity|]. rewrite (proj1 (split_right _ _ _ _ (above_half _ _ _ B2 Fl) (below_half _ _ _ B2 F21) (above_half _ _ _ B2 F22))).
        pose proof (STree_hash _ _ T21) as K21. rewrite leaf_right by auto. rewrite S. unfold mg_branch_prove. cbn [mg_m mg_ap mg_a mg_bp mg_b mg_mp orb hofw andb].
        rewrite dadd0_l by auto. split; [|reflexivity]. apply (MSplit _ _ b2 p2); auto; [apply sm_Forall; auto|apply STree_MTree; auto].
    - destruct x2 as [[h2 a2] e2]. subst. cbn [ev_leaf en_addr ev_node] in *. cbn [ba_h base] in Rc.
      destruct c; cbn [relates ba_h base] in Rc; try (apply SB; tauto); try (apply SR; tauto); try (exfalso; (congruence || lia)).
      + injection Rc as Rc _. lia.
      + destruct Rc as (_ & Ra & Rb). pose proof (lower_half _ _ _ _ B1 R2 Ra Rb) as Fl.
        destruct (IHfuel l11 [(h2, a2, e2)] t11 (EvL h2 a2 e2)) as (p & t & -> & M & S); [auto|auto|cbn in *; lia|]. 
        eexists _, _. split; [reflexivity|]. rewrite (proj2 (split_left _ _ _ _ (below_half _ _ _ B1 Fl) (below_half _ _ _ B1 F11) (above_half _ _ _ B1 F12))).
        pose proof (STree_hash _ _ T12) as K22. rewrite leaf_left by auto. rewrite S. unfold mg_branch_prove. cbn [mg_m mg_ap mg_a mg_bp mg_b mg_mp orb hofw andb].
        rewrite dadd0_r by auto. split; [|reflexivity]. apply (MSplit _ _ b1 p1); auto; [apply sm_Forall; auto|apply STree_MTree; auto].
      + destruct Rc as (_ & Ra & Rb). pose proof (upper_half _ _ _ _ B1 R2 Ra Rb) as Fl.
        destruct (IHfuel l12 [(h2, a2, e2)] t12 (EvL h2 a2 e2)) as (p & t & -> & M & S); [auto|auto|cbn in *; lia|]. 
        eexists _, _. split; [reflexivity|]. rewrite (proj2 (split_right _ _ _ _ (above_half _ _ _ B1 Fl) (below_half _ _ _ B1 F11) (above_half _ _ _ B1 F12))).
        pose proof (STree_hash _ _ T11) as K21. rewrite leaf_left by auto. rewrite S. unfold mg_branch_prove. cbn [mg_m mg_ap mg_a mg_bp mg_b mg_mp orb hofw andb].
        rewrite dadd0_l by auto. split; [|reflexivity]. apply (MSplit _ _ b1 p1); auto; [apply sm_Forall; auto|apply STree_MTree; auto].
    - subst. cbn [en_addr ev_node] in *.
      destruct c; try (apply SB; cbn in Rc; tauto); try (apply SR; cbn in Rc; tauto); try (apply SB, Sib; cbn in Rc; tauto); try (apply SR, Sib'; cbn in Rc; tauto); cbn [relates ba_h] in Rc.
      + injection Rc as Eb Ep. assert (b2 = b1) as -> by lia. subst p2.
        destruct (IHfuel l11 l21 t11 t21) as (p & t & -> & M & S); [auto|auto|cbn in *; lia|]. 
        destruct (IHfuel l12 l22 t12 t22) as (p' & t' & -> & M' & S'); [auto|auto|cbn in *; lia|]. 
        eexists _, _. split; [reflexivity|].
        rewrite (sm_split ev_ad _ l11 l12 l21 l22 (below_half _ _ _ B1 F11) (above_half _ _ _ B1 F12) (below_half _ _ _ B1 F21) (above_half _ _ _ B1 F22)).
        rewrite S, S'. unfold mg_branch_prove. cbn [mg_m mg_ap mg_a mg_bp mg_b mg_mp orb hofw andb].
        split; [|reflexivity]. apply (MSplit _ _ b1 p1); auto; apply sm_Forall; auto.
      + destruct Rc as (_ & Ra & Rb). pose proof (lower_half _ _ _ _ B1 R2 Ra Rb) as Fl.
        destruct (IHfuel l11 (l21 ++ l22) t11 (ev_node H (BA (b2 + 1) p2) t21 t22)) as (p & t & Em & M & S); [auto|auto|cbn in *; lia|]. cbn [ev_node] in Em. rewrite Em.
        eexists _, _. split; [reflexivity|]. rewrite (proj2 (split_left _ _ _ _ (below_half _ _ _ B1 Fl) (below_half _ _ _ B1 F11) (above_half _ _ _ B1 F12))).
        pose proof (STree_hash _ _ T12) as K22. rewrite leaf_left by auto. rewrite S. unfold mg_branch_prove. cbn [mg_m mg_ap mg_a mg_bp mg_b mg_mp orb hofw andb].
        rewrite dadd0_r by auto. split; [|reflexivity]. apply (MSplit _ _ b1 p1); auto; [apply sm_Forall; auto|apply STree_MTree; auto].
      + destruct Rc as (_ & Ra & Rb). pose proof (upper_half _ _ _ _ B1 R2 Ra Rb) as Fl.
        destruct (IHfuel l12 (l21 ++ l22) t12 (ev_node H (BA (b2 + 1) p2) t21 t22)) as (p & t & Em & M & S); [auto|auto|cbn in *; lia|]. cbn [ev_node] in Em. rewrite Em.
        eexists _, _. split; [reflexivity|]. rewrite (proj2 (split_right _ _ _ _ (above_half _ _ _ B1 Fl) (below_half _ _ _ B1 F11) (above_half _ _ _ B1 F12))).
        pose proof (STree_hash _ _ T11) as K21. rewrite leaf_left by auto. rewrite S. unfold mg_branch_prove. cbn [mg_m mg_ap mg_a mg_bp mg_b mg_mp orb hofw andb].
        rewrite dadd0_l by auto. split; [|reflexivity]. apply (MSplit _ _ b1 p1); auto; [apply sm_Forall; auto|apply STree_MTree; auto].
      + destruct Rc as (_ & Ra & Rb). pose proof (lower_half _ _ _ _ B2 R1 Ra Rb) as Fl.
        destruct (IHfuel (l11 ++ l12) l21 (ev_node H (BA (b1 + 1) p1) t11 t12) t21) as (p & t & Em & M & S); [auto|auto|cbn in *; lia|]. cbn [ev_node] in Em. rewrite Em.
        eexists _, _. split; [reflexivity|]. rewrite (proj1 (split_left _ _ _ _ (below_half _ _ _ B2 Fl) (below_half _ _ _ B2 F21) (above_half _ _ _ B2 F22))).
        pose proof (STree_hash _ _ T22) as K22. rewrite leaf_right by auto. rewrite S. unfold mg_branch_prove. cbn [mg_m mg_ap mg_a mg_bp mg_b mg_mp orb hofw andb].
        rewrite dadd0_r by auto. split; [|reflexivity]. apply (MSplit _ _ b2 p2); auto; [apply sm_Forall; auto|apply STree_MTree; auto].
      + destruct Rc as (_ & Ra & Rb). pose proof (upper_half _ _ _ _ B2 R1 Ra Rb) as Fl.
        destruct (IHfuel (l11 ++ l12) l22 (ev_node H (BA (b1 + 1) p1) t11 t12) t22) as (p & t & Em & M & S); [auto|auto|cbn in *; lia|]. cbn [ev_node] in Em. rewrite Em.
        eexists _, _. split; [reflexivity|]. rewrite (proj1 (split_right _ _ _ _ (above_half _ _ _ B2 Fl) (below_half _ _ _ B2 F21) (above_half _ _ _ B2 F22))).
        pose proof (STree_hash _ _ T21) as K21. rewrite leaf_right by auto. rewrite S. unfold mg_branch_prove. cbn [mg_m mg_ap mg_a mg_bp mg_b mg_mp orb hofw andb].
        rewrite dadd0_l by auto. split; [|reflexivity]. apply (MSplit _ _ b2 p2); auto; [apply sm_Forall; auto|apply STree_MTree; auto].
  Qed.
  (** ** One tree per list *)
  Lemma SSorted_app {A} (R : A -> A -> Prop) (l1 l2 : list A) : StronglySorted R l1 -> StronglySorted R l2 -> (forall x y, x ∈ l1 -> y ∈ l2 -> R x y) -> StronglySorted R (l1 ++ l2).
  Proof.
    intros S1 S2. induction S1 as [|x l1 S IH F]; intros X; [auto|]. cbn. constructor; [apply IH; intros; apply X; set_solver|].
    apply List.Forall_app. split; [auto|]. apply List.Forall_forall. intros y Iy. apply X; [set_solver|apply elem_of_list_In; auto].
  Qed.
  Lemma STree_sorted l t : STree l t -> StronglySorted (fun x y : ev => ev_ad x < ev_ad y) l.
  Proof.
    induction 1 as [x R D|l1 l2 b p t1 t2 B P F1 F2 T1 IH1 T2 IH2]; [repeat constructor|].
    apply SSorted_app; auto. intros x y Ix Iy. pose proof (below_half _ _ _ B F1) as G1. pose proof (above_half _ _ _ B F2) as G2.
    rewrite List.Forall_forall in G1, G2. apply elem_of_list_In in Ix, Iy. specialize (G1 x Ix). specialize (G2 y Iy). cbn in *. lia.
  Qed.
  Lemma sorted_by_addr (l : list ev) : StronglySorted (fun x y : ev => ev_ad x < ev_ad y) l -> by_addr ev_ad l.
  Proof.
    induction 1 as [|x l S IH F]; intros i j u v L Eu Ev; [done|]. destruct i as [|i], j as [|j]; try lia; cbn in Eu, Ev.
    - injection Eu as <-. rewrite List.Forall_forall in F. apply elem_of_list_lookup_2, elem_of_list_In in Ev. specialize (F v Ev). cbn in F. lia.
    - apply (IH i j); auto. lia.
  Qed.
  Lemma app_cut {A} (Q : A -> bool) (a b c d : list A) : a ++ b = c ++ d -> Forall (fun x => Q x = true) a -> Forall (fun x => Q x = false) b ->
    Forall (fun x => Q x = true) c -> Forall (fun x => Q x = false) d -> a = c /\ b = d.
  Proof.
    revert c. induction a as [|x a IH]; intros c Ec Fa Fb Fc Fd; destruct c as [|y c]; cbn in Ec.
    - auto.
    - subst b. inversion Fb; inversion Fc; subst. congruence.
    - subst d. inversion Fa; inversion Fd; subst. congruence.
    - injection Ec as -> Ec. inversion Fa; inversion Fc; subst. destruct (IH c) as (-> & ->); auto.
  Qed.
  Lemma STree_unique l t : STree l t -> forall t', STree l t' -> t = t'.
  Proof.
    induction 1 as [x R D|l1 l2 b p t1 t2 B P F1 F2 T1 IH1 T2 IH2]; intros t' T'.
    - inversion T' as [y R' D' Ey Et|m1 m2 b' p' t1' t2' B' P' G1 G2 T1' T2' El Et]; [auto|]. exfalso.
      destruct (STree_nonempty _ _ T1') as (u & r & ->), (STree_nonempty _ _ T2') as (v & s & ->). apply (f_equal length) in El. rewrite app_length in El. cbn in El. lia.
    - destruct (STree_nonempty _ _ T1) as (u & r & Eu), (STree_nonempty _ _ T2) as (v & s & Ev).
      inversion T' as [y R' D' Ey Et|m1 m2 b' p' t1' t2' B' P' G1 G2 T1' T2' El Et].
      { exfalso. subst. apply (f_equal length) in Ey. rewrite app_length in Ey. cbn in Ey. lia. }
      destruct (STree_nonempty _ _ T1') as (u' & r' & Eu'), (STree_nonempty _ _ T2') as (v' & s' & Ev').
      assert (Hd : u = u'). { subst. cbn in El. congruence. }
      destruct (exists_last (l := l2)) as (i2 & w & Ew); [subst; done|]. destruct (exists_last (l := m2)) as (j2 & w' & Ew'); [subst; done|].
      assert (Hw : w = w'). { rewrite Ew, Ew' in El. rewrite !app_assoc in El. apply app_inj_tail in El as (_ & El). auto. }
      assert (Q1 : ev_ad u / 2 ^ b = 2 * p) by (rewrite Eu in F1; inversion F1; auto). assert (Q1' : ev_ad u / 2 ^ b' = 2 * p') by (subst u'; rewrite Eu' in G1; inversion G1; auto).
      assert (Q2 : ev_ad w / 2 ^ b = 2 * p + 1). { rewrite Ew in F2. apply List.Forall_app in F2 as (_ & F2). inversion F2; auto. }
      assert (Q2' : ev_ad w / 2 ^ b' = 2 * p' + 1). { subst w'. rewrite Ew' in G2. apply List.Forall_app in G2 as (_ & G2). inversion G2; auto. }
      assert (NL : forall b b' p p', 0 <= b -> ev_ad u / 2 ^ b = 2 * p -> ev_ad w / 2 ^ b = 2 * p + 1 -> ev_ad u / 2 ^ b' = 2 * p' -> ev_ad w / 2 ^ b' = 2 * p' + 1 -> ~ b < b').
      { clear. intros b b' p p' B A1 A2 A3 A4 L. 
        assert (Hq : forall x, x / 2 ^ b' = x / 2 ^ b / 2 / 2 ^ (b' - b - 1)).
        { intros x. pose proof (div_pow2_add (x / 2 ^ b) 1 (b' - b - 1)) as Dd. rewrite Z.pow_1_r in Dd. rewrite Dd by lia. rewrite div_pow2_add by lia. f_equal. f_equal. lia. }
        rewrite Hq, A1 in A3. rewrite Hq, A2 in A4. replace ((2 * p + 1) / 2) with p in A4 by (apply Z.div_unique with 1; [left|]; lia).
        replace (2 * p / 2) with p in A3 by (apply Z.div_unique with 0; [left|]; lia). clear -A3 A4. lia. }
      pose proof (NL _ _ _ _ B Q1 Q2 Q1' Q2') as N1. pose proof (NL _ _ _ _ B' Q1' Q2' Q1 Q2) as N2. assert (b' = b) as -> by (clear -N1 N2; lia).
      assert (p' = p) as -> by (clear -Q1 Q1'; lia).
      destruct (app_cut (fun x => Z.eqb (ev_ad x / 2 ^ b) (2 * p)) m1 m2 l1 l2) as (-> & ->); auto;
        try (eapply Forall_impl; [|eassumption]; intros x Ex; cbn in Ex; (apply Z.eqb_eq || apply Z.eqb_neq); clear -Ex; lia).
      rewrite (IH1 _ T1'), (IH2 _ T2'). auto.
  Qed.
  (** trees of merged programs, when all addresses are distinct *)
  Lemma STree_leaves l t : STree l t -> leaves (tree_of t) = l.
  Proof. induction 1 as [[[h a] e] R D|l1 l2 b p t1 t2 B P F1 F2 T1 IH1 T2 IH2]; cbn; [auto|]. rewrite IH1, IH2. auto. Qed.
  Lemma distinct_perm (l l' : list ev) : l ≡ₚ l' -> distinct_addrs l -> distinct_addrs l'.
  Proof. unfold distinct_addrs. intros P D. apply (Permutation_map ev_ad) in P. eapply Permutation_NoDup; eauto. Qed.
  Lemma ev_ok_perm (l l' : list ev) : l ≡ₚ l' -> ev_ok l -> ev_ok l'.
  Proof. unfold ev_ok. intros P F. rewrite <- P. auto. Qed.
  Lemma ETree_hash (l : list ev) t : ETree H l t -> ev_ok l -> dig_ok (en_hash t).
  Proof.
    assert (RH : forall a l t, Rounds (ev_node H a) l t -> Forall (fun t => dig_ok (en_hash t)) l -> dig_ok (en_hash (E := E) t)).
    { clear -H_ok. intros a l t. induction 1 as [x|u v l x R IH]; intros F; [inversion F; auto|]. apply IH. clear -F H_ok.
      induction (u :: v :: l) as [|y|c d k IH] using pair_ind; auto. inversion F as [|? ? Fc F']; subst. inversion F' as [|? ? Fd F'']; subst.
      cbn. constructor; [apply H_ok|auto]. }
    destruct 1 as [l a t Ba F R|]; intros O; [|apply H_ok]. apply (RH _ _ _ R). apply List.Forall_forall. intros u I. apply in_map_iff in I as ([[h q] e] & <- & I).
    unfold ev_ok in O. rewrite List.Forall_forall in O. apply (O _ I).
  Qed.
End Merge.
