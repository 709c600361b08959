(** The memory table built from a consistent set of rows: sorting and constraints. *)
From Coq Require Import Sorting.Permutation.
From Verif Require Import MemGenModel StateSpec DeviceSpec DeviceProofs TableProofs CpuTrace StateProofs StateWitness WordProofs WordProps PoseidonSpec PoseidonGen.
Open Scope Z_scope.

(** ** Sorting *)
Section Sort.
Context {A : Type} (le : A -> A -> bool).
Lemma insert_perm x l : Permutation (insert_by le x l) (x :: l).
Proof.
  induction l as [|y l IH]; cbn [insert_by]; [reflexivity|]. destruct (le x y); [reflexivity|]. rewrite IH. apply perm_swap.
Qed.
Lemma sort_perm l : Permutation (sort_by le l) l.
Proof. induction l as [|x l IH]; [reflexivity|]. unfold sort_by in *. cbn [fold_right]. rewrite insert_perm, IH. reflexivity. Qed.
Lemma sort_in l x : In x (sort_by le l) <-> In x l.
Proof. split; apply Permutation_in; [|symmetry]; apply sort_perm. Qed.
(** What holds for every pair of elements put in order holds along the sorted list. *)
Variable W : A -> A -> Prop.
Hypothesis W_le : forall x y, W x y -> le x y = true.
Hypothesis le_trans : forall x y z, le x y = true -> le y z = true -> le x z = true.
Let D x y : Prop := (le x y = true -> W x y) /\ (le x y = false -> W y x).
Lemma insert_pairs x l : Forall (D x) l -> ForallOrdPairs W l -> ForallOrdPairs W (insert_by le x l).
Proof.
  induction l as [|y l IH]; intros F P; cbn [insert_by]; [constructor; constructor|]. apply Forall_cons_iff in F as [Dy F]. inversion P as [|? ? Fy Py]; subst.
  destruct (le x y) eqn:E.
  - constructor; [|exact P]. constructor; [apply Dy, E|]. rewrite List.Forall_forall in *. intros z Iz. apply (F z Iz). apply (le_trans x y z E). apply W_le, Fy, Iz.
  - constructor; [|apply IH; assumption]. rewrite List.Forall_forall in *. intros z Iz. apply (Permutation_in _ (insert_perm x l)) in Iz as [<-|Iz]; [apply Dy, E|apply Fy, Iz].
Qed.
Lemma sort_pairs l : ForallOrdPairs D l -> ForallOrdPairs W (sort_by le l).
Proof.
  induction 1 as [|x l F P IH]; [constructor|]. unfold sort_by in *. cbn [fold_right]. apply insert_pairs; [|exact IH].
  rewrite List.Forall_forall in *. intros y I. apply F. apply sort_in, I.
Qed.
End Sort.
Lemma pairs_app {A} (R : A -> A -> Prop) l1 l2 : ForallOrdPairs R l1 -> ForallOrdPairs R l2 -> (forall x y, In x l1 -> In y l2 -> R x y) -> ForallOrdPairs R (l1 ++ l2).
Proof.
  intros P1 P2 H. induction P1 as [|x l F P1 IH]; [exact P2|]. cbn [app]. constructor.
  - apply List.Forall_app. split; [exact F|]. apply List.Forall_forall. intros y I. apply H; [left; reflexivity|exact I].
  - apply IH. intros a b Ia Ib. apply H; [right; exact Ia|exact Ib].
Qed.
Lemma pairs_all {A} (R : A -> A -> Prop) l : (forall x y, In x l -> In y l -> R x y) -> ForallOrdPairs R l.
Proof.
  induction l as [|x l IH]; intros H; [constructor|]. constructor; [apply List.Forall_forall; intros y I; apply H; [left; reflexivity|right; exact I]|].
  apply IH. intros; apply H; right; assumption.
Qed.
Lemma pairs_impl {A} (R S : A -> A -> Prop) l : (forall x y, In x l -> In y l -> R x y -> S x y) -> ForallOrdPairs R l -> ForallOrdPairs S l.
Proof.
  intros H P. induction P as [|x l F P IH]; [constructor|]. constructor.
  - rewrite List.Forall_forall in *. intros y I. apply H; [left; reflexivity|right; exact I|apply F, I].
  - apply IH. intros a b Ia Ib. apply H; right; assumption.
Qed.
Lemma pairs_mid {A} (R : A -> A -> Prop) l1 x y l2 : ForallOrdPairs R (l1 ++ x :: y :: l2) ->
  R x y /\ (forall z, In z l1 -> R z x /\ R z y) /\ (forall z, In z l2 -> R x z /\ R y z).
Proof.
  induction l1 as [|a l1 IH]; cbn [app]; intros P; inversion P as [|? ? F P']; subst.
  - inversion P' as [|? ? F' _]; subst. rewrite List.Forall_forall in *. split; [apply F; left; reflexivity|]. split; [intros z []|]. intros z I. split; [apply F; right; exact I|apply F', I].
  - destruct (IH P') as (H1 & H2 & H3). split; [exact H1|]. split; [|exact H3]. intros z [<-|I]; [|apply H2, I]. rewrite List.Forall_forall in F. split; apply F; apply in_or_app; right; cbn; auto.
Qed.
Lemma adj_split {R} (l : list R) x y : In (x, y) (adj l) -> exists l1 l2, l = l1 ++ x :: y :: l2.
Proof.
  induction l as [|a l IH]; [intros []|]. destruct l as [|b l]; [intros []|]. rewrite adj_cons. intros [E|I].
  - injection E as <- <-. exists [], l. reflexivity.
  - destruct (IH I) as (l1 & l2 & E). exists (a :: l1), l2. rewrite E. reflexivity.
Qed.
Lemma adj_map {R S} (f : R -> S) l : adj (map f l) = map (fun '(x, y) => (f x, f y)) (adj l).
Proof. induction l as [|x l IH]; [reflexivity|]. destruct l as [|y l]; [reflexivity|]. cbn [map] in *. rewrite !adj_cons, IH. reflexivity. Qed.
Lemma sat_pairs_ends {R} (A : air R) (x : R) l : all_zero (a_first A x) -> all_zero (a_last A (List.last (x :: l) x)) ->
  (forall r r', In (r, r') (adj ((x :: l) ++ [x])) -> all_zero (a_always A r r')) ->
  (forall r r', In (r, r') (adj (x :: l)) -> all_zero (a_transition A r r')) -> trace_sat A (x :: l).
Proof.
  intros F L H H'. constructor.
  - discriminate.
  - intros r E. cbn in E. injection E as <-. exact F.
  - intros k r r' E E'. apply H. rewrite <- windows_adj. eapply windows_In; eauto.
  - intros k r r' E E'. apply H'. eapply (adj_lookup_In _ k); eauto.
  - intros r E. assert (G : forall (l : list R) x d, stdpp.list.last (x :: l) = Some (List.last (x :: l) d)).
    { clear. induction l as [|y l IH]; intros x d; [reflexivity|]. cbn [stdpp.list.last List.last] in *. apply (IH y d). }
    rewrite (G l x x) in E. injection E as <-. exact L.
Qed.

(** ** A consistent history *)
(** [val c a]: the byte at address [a] before the step of clock [c] *)
Record history (inits accs : list memrow) (val : Z -> Z -> Z) (ro : Z -> bool) (T : Z) : Prop := {
  hy_init : forall r, In r inits -> m_init r = 1 /\ m_store r = 0 /\ m_load r = 0 /\ (m_clk r = 0 \/ m_clk r = 1) /\ u32 (m_addr r) /\ u8 (m_value r) /\ m_value r = val 2 (m_addr r);
  hy_nodup : List.NoDup (map m_addr inits);
  hy_ends : In 0 (map m_addr inits) /\ In 4294967295 (map m_addr inits);
  hy_acc : forall r, In r accs -> m_init r = 0 /\ 2 <= m_clk r < T /\ In (m_addr r) (map m_addr inits) /\ u8 (m_value r) /\
    ((m_load r = 1 /\ m_store r = 0 /\ m_value r = val (m_clk r) (m_addr r)) \/
     (m_store r = 1 /\ m_load r = 0 /\ m_value r = val (m_clk r + 1) (m_addr r) /\ ro (m_addr r) = false));
  hy_change : forall c a, 2 <= c < T -> val (c + 1) a <> val c a -> exists r, In r accs /\ m_store r = 1 /\ m_clk r = c /\ m_addr r = a;
  hy_order : ForallOrdPairs (fun x y => m_addr x = m_addr y -> m_clk x = m_clk y -> m_store x = 1 -> m_load y = 0) accs;
  hy_T : 4 * T <= 2 ^ 32 }.
Section Table.
Context inits accs val ro T (HY : history inits accs val ro T).
Let ms := inits ++ accs.
Definition mem_sorted : list memrow := sort_by mem_key_le ms.
Definition before (x y : memrow) : Prop :=
  mem_key_le x y = true /\ (m_addr x = m_addr y -> m_init y = 0 /\ (m_clk x = m_clk y -> m_store x = 1 -> m_load y = 0)).
Lemma key_le x y : mem_key_le x y = true <-> m_addr x < m_addr y \/ (m_addr x = m_addr y /\ m_clk x <= m_clk y).
Proof. unfold mem_key_le. rewrite orb_true_iff, andb_true_iff, Z.ltb_lt, Z.eqb_eq, Z.leb_le. reflexivity. Qed.
Lemma key_gt x y : mem_key_le x y = false -> m_addr y < m_addr x \/ (m_addr x = m_addr y /\ m_clk y < m_clk x).
Proof. intros H. destruct (Z.lt_total (m_addr x) (m_addr y)) as [L|[L|L]]; [|right; split; [exact L|]|left; exact L].
  - rewrite (proj2 (key_le x y)) in H by (left; exact L). discriminate.
  - destruct (Z.le_gt_cases (m_clk x) (m_clk y)) as [C|C]; [|exact C]. rewrite (proj2 (key_le x y)) in H by (right; auto). discriminate.
Qed.
Lemma sorted_pairs : ForallOrdPairs before mem_sorted.
Proof.
  unfold mem_sorted. apply sort_pairs.
  - intros x y []. assumption.
  - intros x y z. rewrite !key_le. lia.
  - unfold ms. apply pairs_app.
    + pose proof (hy_nodup _ _ _ _ _ HY) as ND. pose proof (hy_init _ _ _ _ _ HY) as HI. clear HY. subst ms. revert ND HI. induction inits as [|x l IH]; intros ND HI; [constructor|]. cbn [map] in ND. inversion ND as [|? ? NI ND']; subst. constructor.
      * apply List.Forall_forall. intros y Iy. assert (NE : m_addr x <> m_addr y) by (intros E; apply NI; rewrite E; apply in_map, Iy). split; intros E.
        -- split; [exact E|]. intros Q. congruence.
        -- apply key_gt in E. split; [apply key_le; lia|]. intros Q. congruence.
      * apply IH; [exact ND'|]. intros r Ir. apply HI. right. exact Ir.
    + eapply pairs_impl; [|exact (hy_order _ _ _ _ _ HY)]. intros x y Ix Iy O. pose proof (proj1 (hy_acc _ _ _ _ _ HY x Ix)) as X0. pose proof (proj1 (hy_acc _ _ _ _ _ HY y Iy)) as Y0. split; intros E.
      * split; [exact E|]. intros Ea. split; [exact Y0|]. intros Ec. exact (O Ea Ec).
      * apply key_gt in E. split; [apply key_le; lia|]. intros Ea. split; [exact X0|]. intros Ec. lia.
    + intros x y Ix Iy. destruct (hy_init _ _ _ _ _ HY x Ix) as (_ & S0 & _ & C & _). destruct (hy_acc _ _ _ _ _ HY y Iy) as (Y0 & CY & _). split; intros E.
      * split; [exact E|]. intros _. split; [exact Y0|]. intros Ec. lia.
      * apply key_gt in E. split; [apply key_le; lia|]. intros Ea. lia.
Qed.
Lemma sorted_cases r : In r mem_sorted -> In r inits \/ In r accs.
Proof. intros I. unfold mem_sorted in I. apply sort_in in I. unfold ms in I. apply in_app_or, I. Qed.
Lemma init_sorted r : In r inits -> In r mem_sorted.
Proof. intros I. unfold mem_sorted. apply sort_in. apply in_or_app. left. exact I. Qed.
Lemma acc_sorted r : In r accs -> In r mem_sorted.
Proof. intros I. unfold mem_sorted. apply sort_in. apply in_or_app. right. exact I. Qed.
Lemma has_init r : In r mem_sorted -> exists i, In i inits /\ m_addr i = m_addr r.
Proof.
  intros I. destruct (sorted_cases r I) as [H|H]; [exists r; auto|]. destruct (hy_acc _ _ _ _ _ HY r H) as (_ & _ & J & _). apply in_map_iff in J as (i & E & J). eauto.
Qed.
Lemma sorted_row r : In r mem_sorted -> u32 (m_addr r) /\ u8 (m_value r) /\ bit (m_init r) /\ bit (m_store r) /\ bit (m_load r) /\ m_init r + m_store r + m_load r = 1 /\
  (m_init r = 1 -> m_clk r = 0 \/ m_clk r = 1) /\ (m_init r = 0 -> 2 <= m_clk r < T) /\ (m_store r = 1 -> ro (m_addr r) = false).
Proof.
  intros I. destruct (has_init r I) as (i & Ii & Ea). destruct (hy_init _ _ _ _ _ HY i Ii) as (_ & _ & _ & _ & Ua & _). rewrite Ea in Ua. split; [exact Ua|].
  destruct (sorted_cases r I) as [H|H].
  - destruct (hy_init _ _ _ _ _ HY r H) as (Q1 & Q2 & Q3 & Q4 & Q5 & Q6 & _). split; [exact Q6|]. unfold bit. repeat split; try lia. 
  - destruct (hy_acc _ _ _ _ _ HY r H) as (Q1 & Q2 & Q3 & Q4 & Q5). split; [exact Q4|]. unfold bit. repeat split; try lia. intros S1. destruct Q5 as [(_ & Q5 & _)|(_ & _ & _ & Q5)]; [lia|exact Q5].
Qed.
Lemma steady a c1 c2 : 2 <= c1 <= c2 -> c2 < T -> (forall r, In r accs -> m_store r = 1 -> m_addr r = a -> c1 <= m_clk r -> c2 <= m_clk r) -> val c1 a = val c2 a.
Proof.
  intros B L H. assert (G : forall n : nat, c1 + Z.of_nat n <= c2 -> val c1 a = val (c1 + Z.of_nat n) a).
  { induction n as [|n IH]; intros Q; [f_equal; lia|]. rewrite IH by lia. replace (c1 + Z.of_nat (S n)) with (c1 + Z.of_nat n + 1) by lia.
    destruct (Z.eq_dec (val (c1 + Z.of_nat n + 1) a) (val (c1 + Z.of_nat n) a)) as [E|N]; [congruence|]. exfalso.
    destruct (hy_change _ _ _ _ _ HY (c1 + Z.of_nat n) a ltac:(lia) N) as (r & Ir & S1 & C1 & A1). specialize (H r Ir S1 A1 ltac:(lia)). lia. }
  rewrite (G (Z.to_nat (c2 - c1))) by lia. f_equal. lia.
Qed.
Lemma sorted_adj x y : In (x, y) (adj mem_sorted) -> In x mem_sorted /\ In y mem_sorted /\
  ((m_init y = 1 /\ m_addr x < m_addr y) \/
   (m_init y = 0 /\ m_addr x = m_addr y /\ 0 <= m_aug y - m_aug x < 2 ^ 32 /\ (m_load y = 1 -> m_value y = m_value x))).
Proof.
  intros I. destruct (adj_split _ _ _ I) as (l1 & l2 & E). pose proof sorted_pairs as P. rewrite E in P. destruct (pairs_mid _ _ _ _ _ P) as (XY & H1 & H2). clear P.
  assert (IN : forall z, In z mem_sorted <-> In z l1 \/ z = x \/ z = y \/ In z l2).
  { intros z. rewrite E, in_app_iff. cbn. intuition auto. }
  assert (Ix : In x mem_sorted) by (apply IN; auto). assert (Iy : In y mem_sorted) by (apply IN; auto). split; [exact Ix|]. split; [exact Iy|].
  destruct XY as [K XY]. apply key_le in K. destruct (sorted_row x Ix) as (Ux & Vx & Bx1 & Bx2 & Bx3 & Sx & Cx1 & Cx2 & _). destruct (sorted_row y Iy) as (Uy & Vy & By1 & By2 & By3 & Sy & Cy1 & Cy2 & _).
  destruct (Z.eq_dec (m_addr x) (m_addr y)) as [Ea|Na].
  - right. destruct (XY Ea) as [Y0 YL]. split; [exact Y0|]. split; [exact Ea|]. split.
    + pose proof (hy_T _ _ _ _ _ HY) as HT. unfold m_aug, bit in *. lia.
    + intros Ly. specialize (Cy2 Y0). destruct (sorted_cases y Iy) as [Hy|Hy]; [destruct (hy_init _ _ _ _ _ HY y Hy); lia|].
      destruct (hy_acc _ _ _ _ _ HY y Hy) as (_ & _ & _ & _ & [(_ & _ & Vy')|(Q & _)]); [|unfold bit in *; lia]. rewrite Vy'.
      assert (ST : forall r, In r accs -> m_store r = 1 -> m_addr r = m_addr y -> m_clk r < m_clk y -> m_clk x < m_clk r \/ (m_clk x = m_clk r /\ m_load x = 1 ) -> False).
      { intros r Ir S1 A1 C1 C2. apply acc_sorted in Ir. apply IN in Ir as [Ir|[Ir|[Ir|Ir]]].
        - destruct (H1 r Ir) as [[K1 W1] _]. apply key_le in K1. destruct C2 as [C2|[C2 L]]; [lia|]. destruct (W1 ltac:(congruence)) as [_ W2]. rewrite W2 in L by (auto; lia). lia.
        - subst r. unfold bit in *. lia.
        - subst r. lia.
        - destruct (H2 r Ir) as [_ [K1 _]]. apply key_le in K1. lia. }
      rewrite Ea in *. destruct (sorted_cases x Ix) as [Hx|Hx].
      * destruct (hy_init _ _ _ _ _ HY x Hx) as (X1 & _ & _ & XC & _ & _ & ->). rewrite Ea. symmetry. apply steady; [lia|lia|]. intros r Ir S1 A1 C1. destruct (Z.le_gt_cases (m_clk y) (m_clk r)) as [Q|Q]; [exact Q|]. exfalso. apply (ST r Ir S1 A1 Q). lia.
      * destruct (hy_acc _ _ _ _ _ HY x Hx) as (X0 & XC & _ & _ & [(Lx & _ & ->)|(Sx' & _ & -> & _)]); rewrite Ea; symmetry.
        -- apply steady; [lia|lia|]. intros r Ir S1 A1 C1. destruct (Z.le_gt_cases (m_clk y) (m_clk r)) as [Q|Q]; [exact Q|]. exfalso. apply (ST r Ir S1 A1 Q). lia.
        -- assert (NC : m_clk x <> m_clk y) by (intros Q; specialize (YL Q Sx'); lia). apply steady; [lia|lia|]. intros r Ir S1 A1 C1. destruct (Z.le_gt_cases (m_clk y) (m_clk r)) as [Q|Q]; [exact Q|]. exfalso. apply (ST r Ir S1 A1 Q). lia.
  - left. split; [|lia]. destruct By1 as [Y0|Y1]; [exfalso|exact Y1]. destruct (has_init y Iy) as (i & Ii & Ai). pose proof (init_sorted i Ii) as Is. destruct (hy_init _ _ _ _ _ HY i Ii) as (I1 & _).
    apply IN in Is as [Is|[Is|[Is|Is]]].
    + destruct (H1 i Is) as [[K1 _] _]. apply key_le in K1. lia.
    + subst i. lia.
    + subst i. lia.
    + destruct (H2 i Is) as [_ [_ W1]]. specialize (W1 ltac:(congruence)). lia.
Qed.
Lemma sorted_first x l : mem_sorted = x :: l -> m_addr x = 0 /\ m_init x = 1.
Proof.
  intros E. assert (Ix : In x mem_sorted) by (rewrite E; left; reflexivity). destruct (hy_ends _ _ _ _ _ HY) as [J _]. apply in_map_iff in J as (i & Ai & Ii). pose proof (init_sorted i Ii) as Is. destruct (hy_init _ _ _ _ _ HY i Ii) as (I1 & _).
  destruct (sorted_row x Ix) as (Ux & _ & B & _). rewrite E in Is. destruct Is as [->|Is]; [auto|]. pose proof sorted_pairs as P. rewrite E in P. inversion P as [|? ? F _]; subst. rewrite List.Forall_forall in F. destruct (F i Is) as [K W]. apply key_le in K.
  unfold u32 in Ux. specialize (W ltac:(lia)). lia.
Qed.
Lemma sorted_last l x : mem_sorted = l ++ [x] -> m_addr x = 4294967295.
Proof.
  intros E. assert (Ix : In x mem_sorted) by (rewrite E; apply in_or_app; right; left; reflexivity). destruct (hy_ends _ _ _ _ _ HY) as [_ J]. apply in_map_iff in J as (i & Ai & Ii). pose proof (init_sorted i Ii) as Is.
  destruct (sorted_row x Ix) as (Ux & _). rewrite E in Is. apply in_app_iff in Is as [Is|[->|[]]]; [|exact Ai]. pose proof sorted_pairs as P. rewrite E in P. clear -P Is Ai Ux. induction l as [|y l IH]; [destruct Is|].
  cbn [app] in P. inversion P as [|? ? F P']; subst. destruct Is as [->|Is]; [|apply IH; assumption]. rewrite List.Forall_forall in F. destruct (F x ltac:(apply in_or_app; right; left; reflexivity)) as [K _]. apply key_le in K. unfold u32 in Ux. lia.
Qed.
Lemma sorted_nonempty : mem_sorted <> [].
Proof. intros E. destruct (hy_ends _ _ _ _ _ HY) as [J _]. apply in_map_iff in J as (i & Ai & Ii). apply init_sorted in Ii. rewrite E in Ii. destruct Ii. Qed.

Definition mem_table : list memrow := pad_mem (map (fun r => set_writable r (b2z (negb (ro (m_addr r))))) mem_sorted).
Let f r := set_writable r (b2z (negb (ro (m_addr r)))).
Definition idle (r : memrow) : memrow := mkMemRow (m_writable r) (m_addr r) (m_clk r) 0 0 0 (m_value r).
Lemma table_shape : exists x l e n, mem_sorted = x :: l /\ (exists l', mem_sorted = l' ++ [e]) /\ mem_table = map f mem_sorted ++ repeat (idle (f e)) (S n).
Proof.
  pose proof sorted_nonempty as NE. destruct mem_sorted as [|x l] eqn:E; [congruence|]. destruct (exists_last (l := x :: l) ltac:(discriminate)) as (l' & e & E').
  set (t := map f (x :: l)). exists x, l, e, (padded_len (length (t ++ [idle (f e)])) - length (t ++ [idle (f e)]))%nat. split; [reflexivity|]. split; [eauto|].
  unfold mem_table. rewrite E. fold f. fold t. unfold pad_mem. replace (List.last t _) with (f e).
  - fold (idle (f e)). unfold pad_with. rewrite <- app_assoc. reflexivity.
  - unfold t. rewrite E', map_app. cbn [map]. symmetry. apply last_last.
Qed.
Lemma bit_b2z b : bit (b2z b). Proof. unfold bit. destruct b; cbn; auto. Qed.
(** pairs of consecutive rows of the table, going around *)
Inductive table_pair : memrow -> memrow -> Prop :=
| tp_rows x y : In (x, y) (adj mem_sorted) -> table_pair (f x) (f y)
| tp_end e : In e mem_sorted -> table_pair (f e) (idle (f e))
| tp_pad e : In e mem_sorted -> table_pair (idle (f e)) (idle (f e))
| tp_wrap e x : In e mem_sorted -> In x mem_sorted -> m_init x = 1 -> table_pair (idle (f e)) (f x).
Lemma adj_repeat {R} (d : R) n x a b : In (a, b) (adj (repeat d n ++ [x])) -> a = d /\ (b = d \/ b = x).
Proof.
  induction n as [|n IH]; [intros []|]. destruct n as [|n]; cbn [repeat app] in *; rewrite adj_cons; intros [E|I].
  - injection E as <- <-. auto.
  - destruct I.
  - injection E as <- <-. auto.
  - apply IH, I.
Qed.
Lemma table_pairs : exists x l, mem_table = x :: l /\ m_addr x = 0 /\ m_addr (List.last (x :: l) x) = 4294967295 /\
  (forall r r', In (r, r') (adj ((x :: l) ++ [x])) -> table_pair r r').
Proof.
  destruct table_shape as (x & l & e & n & E & (l' & E') & ET). exists (f x), (map f l ++ repeat (idle (f e)) (S n)).
  assert (Ie : In e mem_sorted) by (rewrite E'; apply in_or_app; right; left; reflexivity). assert (Ix : In x mem_sorted) by (rewrite E; left; reflexivity).
  destruct (sorted_first x l E) as [A0 I1]. split; [rewrite ET, E; reflexivity|]. split; [exact A0|]. split.
  - replace (S n) with (n + 1)%nat by lia. rewrite repeat_app. cbn [repeat]. rewrite !app_comm_cons, app_assoc, last_last. cbn. apply (sorted_last l' e E').
  - intros r r' I. change (In (r, r') (adj (((map f (x :: l)) ++ repeat (idle (f e)) (S n)) ++ [f x]))) in I. rewrite <- E, E', map_app in I. cbn [map] in I. 
    assert (Q : (((map f l' ++ [f e]) ++ repeat (idle (f e)) (S n)) ++ [f x]) = (map f l' ++ [f e]) ++ idle (f e) :: (repeat (idle (f e)) n ++ [f x])) by (rewrite <- !app_assoc; reflexivity).
    rewrite Q, adj_app in I. apply in_app_iff in I as [I|[I|I]].
    + change (map f l' ++ [f e]) with (map f l' ++ map f [e]) in I. rewrite <- map_app, <- E', adj_map in I. apply in_map_iff in I as ([a b] & Q' & I). injection Q' as <- <-. constructor. exact I.
    + injection I as <- <-. constructor; exact Ie.
    + change (In (r, r') (adj (repeat (idle (f e)) (S n) ++ [f x]))) in I. apply adj_repeat in I as [-> [-> | ->]]; constructor; auto.
Qed.
Lemma table_in r : In r mem_table -> exists e, In e mem_sorted /\ (r = f e \/ r = idle (f e)).
Proof.
  destruct table_shape as (x & l & e & n & E & (l' & E') & ET). rewrite ET, in_app_iff. intros [I|I].
  - apply in_map_iff in I as (y & <- & I). eauto.
  - apply repeat_spec in I. subst r. exists e. split; [rewrite E'; apply in_or_app; right; left; reflexivity|auto].
Qed.
Lemma canon_u32 x : u32 x -> canon x. Proof. unfold u32, canon, P. lia. Qed.
Lemma canon_bit x : bit x -> canon x. Proof. unfold bit, canon, P. lia. Qed.
Lemma sub_same a b c : b = c -> fzero (a * (b - c)).
Proof. intros ->. rewrite Z.sub_diag, Z.mul_0_r. reflexivity. Qed.
Lemma fz_l a b : a = 0 -> fzero (a * b). Proof. intros ->. reflexivity. Qed.
Lemma pair_always r r' : table_pair r r' -> all_zero (a_always mem_air r r').
Proof.
  assert (G : forall e w r', In e mem_sorted -> (w = f e \/ w = idle (f e)) -> (m_init r' = 1 \/ (m_addr r' = m_addr e /\ m_writable r' = m_writable (f e))) -> (m_load r' = 0 \/ m_value r' = m_value e) -> all_zero (a_always mem_air w r')).
  { intros e w y Ie W A V. destruct (sorted_row e Ie) as (Ua & Uv & B1 & B2 & B3 & S & _ & _ & RO). cbn [a_always mem_air]. unfold all_zero.
    assert (Ew : m_addr w = m_addr e /\ m_writable w = b2z (negb (ro (m_addr e))) /\ m_value w = m_value e) by (destruct W as [-> | ->]; auto). destruct Ew as (E1 & E2 & E3).
    assert (Bw : bit (m_store w) /\ bit (m_load w) /\ bit (m_init w) /\ bit (m_executed w) /\ (m_store w = 1 -> ro (m_addr e) = false)).
    { unfold m_executed. destruct W as [-> | ->]; cbn; unfold bit in *; repeat split; try lia; try exact RO. }
    destruct Bw as (Bw1 & Bw2 & Bw3 & Bw4 & Bw5).
    assert (A1 : m_init y = 1 \/ m_addr y = m_addr w) by (destruct A as [A|[A _]]; [auto|right; congruence]).
    assert (A2 : m_init y = 1 \/ m_writable y = m_writable w) by (destruct A as [A|[_ A]]; [auto|right; rewrite E2; exact A]).
    repeat apply List.Forall_cons; try (apply bin_bit; assumption); [apply bin_bit; rewrite E2; apply bit_b2z| | | | |apply List.Forall_nil].
    - destruct A1 as [-> | ->]; [reflexivity|apply sub_same; reflexivity].
    - destruct A2 as [-> | ->]; [reflexivity|apply sub_same; reflexivity].
    - destruct Bw1 as [-> | S1]; [rewrite Z.mul_0_r; reflexivity|]. rewrite E2, (Bw5 S1). reflexivity.
    - destruct V as [-> | V]; [reflexivity|]. apply sub_same. congruence. }
  intros H. destruct H as [x y I|e I|e I|e x I J K].
  - destruct (sorted_adj x y I) as (Ix & Iy & [[Y1 _]|(Y0 & Ea & _ & V)]); apply (G x); auto.
    + destruct (sorted_row y Iy) as (_ & _ & _ & _ & B3 & S & _). left. cbn. destruct (sorted_row y Iy) as (_ & _ & _ & B2 & _). unfold bit in *. lia.
    + right. split; [cbn; congruence|]. cbn. rewrite Ea. reflexivity.
    + destruct (sorted_row y Iy) as (_ & _ & _ & _ & B3 & _). destruct B3 as [B3|B3]; [left; exact B3|right; exact (V B3)].
  - apply (G e); auto.
  - apply (G e); auto.
  - apply (G e); auto. left. cbn. destruct (sorted_row x J) as (_ & _ & _ & B2 & B3 & S & _). unfold bit in *. lia.
Qed.
Lemma exe_row e : In e mem_sorted -> m_executed (f e) = 1.
Proof. intros I. destruct (sorted_row e I) as (_ & _ & _ & _ & _ & S & _). unfold m_executed. cbn. lia. Qed.
Lemma mem_table_ok : trace_sat mem_air mem_table /\ Forall mem_canon mem_table /\ range_checked (mem_rc_looking mem_table) /\
  (forall v w, In ([v], w) (mem_u8_looking mem_table) -> ~ fzero w -> u8 v) /\
  Forall (fun r => m_init r = 1 -> m_clk r = 0 \/ m_clk r = 1) mem_table /\ Forall (fun r => m_store r + m_load r = 1 -> m_clk r < T) mem_table.
Proof.
  destruct table_pairs as (x0 & l0 & ET & A0 & AL & TP).
  assert (RC : range_checked (mem_rc_looking mem_table)).
  { unfold range_checked, mem_rc_looking. rewrite ET, windows_adj. intros v w I NZ. apply in_app_iff in I as [I|I]; apply in_map_iff in I as ([r r'] & E & I); injection E as <- <-; apply TP in I.
    - destruct I as [x y I|e I|e I|e x I J K]; [| |exfalso; apply NZ; reflexivity|exfalso; apply NZ; reflexivity].
      + destruct (sorted_adj x y I) as (Ix & Iy & H). destruct (sorted_row x Ix) as (Ux & _). destruct (sorted_row y Iy) as (Uy & _). cbn. unfold u32 in *. destruct H as [[Y1 L]|(Y0 & Ea & _)].
        * rewrite Y1, Z.mod_small by (unfold P; lia). lia.
        * rewrite Y0, Ea, Z.mod_small by (unfold P; lia). lia.
      + cbn. rewrite Z.sub_diag. assert (Z0 : u32 ((0 - 0) mod P)) by (split; vm_compute; congruence). exact Z0.
    - destruct I as [x y I|e I|e I|e x I J K].
      + destruct (sorted_adj x y I) as (Ix & Iy & H). destruct H as [[Y1 L]|(Y0 & Ea & B & _)]; [exfalso; apply NZ; cbn; rewrite Y1; reflexivity|]. change (m_aug (f y)) with (m_aug y). change (m_aug (f x)) with (m_aug x). rewrite Z.mod_small by (unfold P; lia). unfold u32. lia.
      + destruct (sorted_row e I) as (_ & _ & B1 & B2 & B3 & S & _). unfold m_aug. cbn. unfold bit in *. replace (_ - _) with (m_store e + 2 * m_load e + 3 * m_init e) by lia. rewrite Z.mod_small by (unfold P; lia). unfold u32. lia.
      + rewrite Z.sub_diag. assert (Z0 : u32 (0 mod P)) by (split; vm_compute; congruence). exact Z0.
      + exfalso. apply NZ. cbn. rewrite K. reflexivity. }
  split; [|split; [|split; [exact RC|split; [|split]]]].
  - rewrite ET. apply sat_pairs_ends.
    + apply List.Forall_cons; [|apply List.Forall_nil]. rewrite A0. reflexivity.
    + apply List.Forall_cons; [|apply List.Forall_nil]. rewrite AL. reflexivity.
    + intros r r' I. apply pair_always, TP, I.
    + intros r r' I. apply List.Forall_cons; [|apply List.Forall_nil].
      assert (J : In (r, r') (adj ((x0 :: l0) ++ [x0]))). { apply adj_In_lookup in I as (k & E & E'). apply (adj_lookup_In _ k); rewrite lookup_app_l; auto; [apply lookup_lt_Some in E|apply lookup_lt_Some in E']; lia. }
      pose proof (TP _ _ J) as Q. inversion Q as [x y K Q1 Q2|e K Q1 Q2|e K Q1 Q2|e x K K' K1 Q1 Q2].
      * destruct (sorted_adj x y K) as (Ix & Iy & _). rewrite !exe_row by assumption. reflexivity.
      * replace (m_executed (idle (f e))) with 0 by reflexivity. rewrite Z.mul_0_r. reflexivity.
      * reflexivity.
      * (* the pair (padding, first row) does not occur inside the table *)
        exfalso. subst r r'. clear -HY I ET K K' K1. destruct table_shape as (x1 & l1 & e1 & n & E & (l' & E') & ET'). rewrite <- ET, ET' in I.
        apply adj_In_lookup in I as (k & E1 & E2). destruct (decide (k < length (map f mem_sorted))%nat) as [L|L].
        -- rewrite lookup_app_l in E1 by exact L. apply CpuTrace.lookup_In in E1. apply in_map_iff in E1 as (z & Ez & Iz). pose proof (exe_row z Iz) as X1. rewrite Ez in X1. discriminate.
        -- rewrite lookup_app_r in E2 by lia. apply CpuTrace.lookup_In, repeat_spec in E2. pose proof (exe_row x K') as X1. rewrite E2 in X1. discriminate.
  - apply List.Forall_forall. intros r I. destruct (table_in r I) as (e & Ie & W). destruct (sorted_row e Ie) as (Ua & Uv & B1 & B2 & B3 & S & C1 & C2 & _). pose proof (hy_T _ _ _ _ _ HY) as HT.
    assert (Cc : canon (m_clk e)). { unfold canon, P. destruct B1 as [B1|B1]; [specialize (C2 B1)|specialize (C1 B1)]; lia. }
    assert (Cv : canon (m_value e)) by (unfold u8, canon, P in *; lia). assert (C0 : canon 0) by (unfold canon, P; lia).
    unfold mem_canon. destruct W as [-> | ->]; cbn; repeat split; try apply C0; try apply Cc; try apply Cv; try (apply canon_bit; assumption); try (apply canon_u32; assumption); apply (canon_bit _ (bit_b2z _)).
  - intros v w I NZ. unfold mem_u8_looking in I. apply in_map_iff in I as (r & E & I). injection E as <- <-. destruct (table_in r I) as (e & Ie & W). destruct (sorted_row e Ie) as (_ & Uv & _). destruct W as [-> | ->]; exact Uv.
  - apply List.Forall_forall. intros r I H. destruct (table_in r I) as (e & Ie & W). destruct (sorted_row e Ie) as (_ & _ & _ & _ & _ & _ & C1 & _). destruct W as [-> | ->]; [exact (C1 H)|discriminate].
  - apply List.Forall_forall. intros r I H. destruct (table_in r I) as (e & Ie & W). destruct (sorted_row e Ie) as (_ & _ & B1 & _ & _ & S & _ & C2 & _). destruct W as [-> | ->]; [|discriminate]. apply C2. cbn in H. lia.
Qed.
(** what the table offers to the lookups *)
Lemma table_mult v (tup : memrow -> list Z) (flt : memrow -> Z) : (forall r, flt (idle r) = 0) ->
  mult_of v (map (fun r => (tup r, flt r)) mem_table) = mult_of v (map (fun r => (tup (f r), flt (f r))) (inits ++ accs)).
Proof.
  intros Z0. destruct table_shape as (x1 & l1 & e1 & n & E & (l' & E') & ET). rewrite ET, map_app, mult_of_app, (mult_of_zero v (map _ (repeat _ _))).
  - rewrite Z.add_0_r, map_map. assert (P : Permutation mem_sorted (inits ++ accs)) by (unfold mem_sorted; apply sort_perm). clear -P. induction P as [|x l1 l2 P IH|x y l|l1 l2 l3 P1 IH1 P2 IH2]; [reflexivity| | |congruence]; cbn [map]; rewrite !mult_of_cons; [rewrite IH; reflexivity|apply Z.add_shuffle3].
  - intros e I. apply in_map_iff in I as (q & <- & I). apply repeat_spec in I. subst q. apply Z0.
Qed.
End Table.
