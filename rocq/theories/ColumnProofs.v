(** Proofs of C84. *)
From stdpp Require Import list.
From Coq Require Import ZArith Lia Ring Ring_theory.
From Verif Require Import Word ExprModel ExprSpec ExprCircuit ColumnModel ColumnSpec.
Open Scope Z_scope.

Lemma map_res_ok {A B} (f : A -> res B) (g : A -> B) l : Forall (fun x => f x = Ok (g x)) l -> map_res f l = Ok (map g l).
Proof. induction 1 as [|x l E _ IH]; cbn; [reflexivity|]. rewrite E; cbn. rewrite IH. reflexivity. Qed.
Lemma map_res_inv {A B} (f : A -> res B) l ys : map_res f l = Ok ys -> Forall2 (fun x y => f x = Ok y) l ys.
Proof.
  revert ys. induction l as [|x l IH]; intros ys; cbn; [intros [= <-]; constructor|].
  destruct (f x) eqn:E; cbn; try discriminate. destruct (map_res f l) eqn:E1; cbn; try discriminate. intros [= <-]. constructor; auto.
Qed.
Lemma checked_inv k z : checked k = Ok z -> z = k.
Proof. unfold checked. destruct (_ && _); congruence. Qed.
Lemma checked_ok k : - 2 ^ 63 <= k < 2 ^ 63 -> checked k = Ok k.
Proof. intros. unfold checked. rewrite (proj2 (Z.leb_le _ _)) by lia. rewrite (proj2 (Z.ltb_lt _ _)) by lia. reflexivity. Qed.
Lemma i64_inv k z : i64 k = Ok z -> z = k.
Proof. unfold i64. destruct (_ && _); congruence. Qed.

Ltac obind H := match type of H with rbind ?m _ = Ok _ => let E := fresh "E" in destruct m eqn:E; cbn [rbind] in H; try discriminate H end.

Section Ring.
  Context {R : Type} (F : cells R) (HF : ring_cells F).
  Notation zero := (r_0 F). Notation one := (r_1 F). Notation add := (r_add F). Notation mul := (r_mul F). Notation neg := (r_neg F). Notation phi := (r_int F).
  Let sub (a b : R) := add a (neg b).
  Let RT : ring_theory zero one add mul sub neg eq := rc_ring F HF.
  Add Ring RR : RT.
  Ltac sring := unfold sub in *; ring.

  Lemma total_app a b : total F (a ++ b) = add (total F a) (total F b).
  Proof. induction a as [|x a IH]; cbn; [ring|]. rewrite IH. ring. Qed.
  Lemma fold_left_total l acc : fold_left add l acc = add acc (total F l).
  Proof. revert acc. induction l as [|x l IH]; intros acc; cbn; [ring|]. rewrite IH. ring. Qed.
  Lemma r_sum_total l : r_sum F l = total F l.
  Proof. unfold r_sum. rewrite fold_left_total. ring. Qed.

  (** ** Dense coefficients *)
  Fixpoint dot (cs : list Z) (row : list R) : R :=
    match cs, row with c :: cs, x :: row => add (mul x (phi c)) (dot cs row) | _, _ => zero end.
  Definition dval (c : typed) (lv nv : list R) : R := add (add (dot (t_lv c) lv) (dot (t_nv c) nv)) (phi (t_const c)).

  Lemma dot_zip f (op : R -> R -> R) a b c row : (forall x y z, f x y = Ok z -> phi z = op (phi x) (phi y)) ->
    (forall x p q, mul x (op p q) = op (mul x p) (mul x q)) -> (forall p q r s, add (op p q) (op r s) = op (add p r) (add q s)) -> op zero zero = zero ->
    zip_res f a b = Ok c -> dot c row = op (dot a row) (dot b row).
  Proof.
    intros Hf D1 D2 D3. revert b c row. induction a as [|x a IH]; intros [|y b] c row; cbn; try discriminate.
    - intros [= <-]. cbn. destruct row; cbn; auto.
    - intros E. obind E. obind E. injection E as <-. destruct row as [|r row]; cbn; [auto|]. rewrite (IH _ _ _ E1), (Hf _ _ _ E0), D1, D2. reflexivity.
  Qed.
  Lemma phi_sub a b : phi (a - b) = add (phi a) (neg (phi b)).
  Proof. replace (a - b) with (a + - b) by lia. rewrite (rc_add F HF), (rc_neg F HF). reflexivity. Qed.
  Lemma dot_add a b c row : view_add a b = Ok c -> dot c row = add (dot a row) (dot b row).
  Proof. apply dot_zip; intros; try ring. apply checked_inv in H as ->. apply (rc_add F HF). Qed.
  Lemma dot_sub a b c row : view_sub a b = Ok c -> dot c row = add (dot a row) (neg (dot b row)).
  Proof. apply (dot_zip _ (fun p q => add p (neg q))); intros; try ring. apply checked_inv in H as ->. apply phi_sub. Qed.
  Lemma dot_mul a k c row : view_mul a k = Ok c -> dot c row = mul (dot a row) (phi k).
  Proof.
    unfold view_mul. revert c row. induction a as [|x a IH]; intros c row; cbn; [intros [= <-]; cbn; ring|].
    intros E. obind E. obind E. injection E as <-. destruct row as [|r row]; cbn; [ring|]. rewrite (IH _ _ eq_refl). apply checked_inv in E0 as ->. rewrite (rc_mul F HF). ring.
  Qed.
  Lemma dot_neg a c row : view_neg a = Ok c -> dot c row = neg (dot a row).
  Proof.
    unfold view_neg. revert c row. induction a as [|x a IH]; intros c row; cbn; [intros [= <-]; cbn; ring|].
    intros E. obind E. obind E. injection E as <-. destruct row as [|r row]; cbn; [ring|]. rewrite (IH _ _ eq_refl). apply checked_inv in E0 as ->. rewrite (rc_neg F HF). ring.
  Qed.
  Lemma dot_zero n row : dot (view_zero n) row = zero.
  Proof. unfold view_zero. revert row. induction n as [|n IH]; intros row; cbn; [reflexivity|]. destruct row; [reflexivity|]. rewrite IH, (rc_0 F HF). ring. Qed.
  Lemma dot_unit n i row : (i < n)%nat -> dot (<[i := 1]> (view_zero n)) row = nth i row zero.
  Proof.
    unfold view_zero. revert i row. induction n as [|n IH]; intros i row L; [lia|]. destruct i as [|i]; cbn.
    - destruct row as [|r row]; cbn; [reflexivity|]. fold (view_zero n). rewrite dot_zero, (rc_1 F HF). ring.
    - destruct row as [|r row]; cbn; [reflexivity|]. rewrite IH by lia. rewrite (rc_0 F HF). ring.
  Qed.

  Lemma dval_zero n lv nv : dval (typed_zero n) lv nv = zero.
  Proof. unfold dval; cbn. rewrite !dot_zero, (rc_0 F HF). ring. Qed.
  Lemma dval_neg a c lv nv : t_neg a = Ok c -> dval c lv nv = neg (dval a lv nv).
  Proof.
    unfold t_neg. intros E. obind E. obind E. obind E. injection E as <-. unfold dval; cbn. rewrite (dot_neg _ _ _ E0), (dot_neg _ _ _ E1).
    apply checked_inv in E2 as ->. rewrite (rc_neg F HF). ring.
  Qed.
  Lemma dval_add a b c lv nv : t_add a b = Ok c -> dval c lv nv = add (dval a lv nv) (dval b lv nv).
  Proof.
    unfold t_add. intros E. obind E. obind E. obind E. injection E as <-. unfold dval; cbn. rewrite (dot_add _ _ _ _ E0), (dot_add _ _ _ _ E1).
    apply checked_inv in E2 as ->. rewrite (rc_add F HF). ring.
  Qed.
  Lemma dval_sub a b c lv nv : t_sub a b = Ok c -> dval c lv nv = add (dval a lv nv) (neg (dval b lv nv)).
  Proof.
    unfold t_sub. intros E. obind E. obind E. obind E. injection E as <-. unfold dval; cbn. rewrite (dot_sub _ _ _ _ E0), (dot_sub _ _ _ _ E1).
    apply checked_inv in E2 as ->. rewrite phi_sub. ring.
  Qed.
  Lemma dval_mul a k c lv nv : t_mul_int a k = Ok c -> dval c lv nv = mul (dval a lv nv) (phi k).
  Proof.
    unfold t_mul_int. intros E. obind E. obind E. obind E. injection E as <-. unfold dval; cbn. rewrite (dot_mul _ _ _ _ E0), (dot_mul _ _ _ _ E1).
    apply checked_inv in E2 as ->. rewrite (rc_mul F HF). ring.
  Qed.
  Lemma dval_add_int a k c lv nv : t_add_int a k = Ok c -> dval c lv nv = add (dval a lv nv) (phi k).
  Proof. unfold t_add_int. intros E. obind E. injection E as <-. unfold dval; cbn. apply checked_inv in E0 as ->. rewrite (rc_add F HF). ring. Qed.
  Lemma dval_sub_int a k c lv nv : t_sub_int a k = Ok c -> dval c lv nv = add (dval a lv nv) (neg (phi k)).
  Proof. unfold t_sub_int. intros E. obind E. injection E as <-. unfold dval; cbn. apply checked_inv in E0 as ->. rewrite phi_sub. ring. Qed.
  Lemma dval_int_sub a k c lv nv : int_t_sub k a = Ok c -> dval c lv nv = add (phi k) (neg (dval a lv nv)).
  Proof. unfold int_t_sub. intros E. obind E. rewrite (dval_add_int _ _ _ _ _ E), (dval_neg _ _ _ _ E0). ring. Qed.
  Lemma dval_flip a lv nv : dval (t_flip a) lv nv = dval a nv lv.
  Proof. unfold dval; cbn. ring. Qed.
  Lemma dval_sum_from l acc c lv nv : t_sum_from acc l = Ok c -> dval c lv nv = add (dval acc lv nv) (total F (map (fun a => dval a lv nv) l)).
  Proof.
    revert acc. induction l as [|a l IH]; intros acc; cbn; [intros [= <-]; ring|]. intros E. obind E. rewrite (IH _ E), (dval_add _ _ _ _ _ E0). ring.
  Qed.
  Lemma dval_sum n l c lv nv : t_sum n l = Ok c -> dval c lv nv = total F (map (fun a => dval a lv nv) l).
  Proof. intros E. rewrite (dval_sum_from _ _ _ _ _ E), dval_zero. ring. Qed.

  (** Horner's scheme *)
  Definition horner (b : R) (l : list R) : R := fold_right (fun x acc => add (mul acc b) x) zero l.
  Lemma powers_shift b l k : total F (map (fun '(i, x) => mul x (power F b i)) (combine (seq (S k) (length l)) l)) =
    mul (total F (map (fun '(i, x) => mul x (power F b i)) (combine (seq k (length l)) l))) b.
  Proof. revert k. induction l as [|x l IH]; intros k; cbn; [ring|]. rewrite IH. cbn. ring. Qed.
  Lemma horner_powers b l : horner b l = powers_total F b l.
  Proof.
    unfold powers_total. induction l as [|x l IH]; cbn; [reflexivity|]. fold (horner b l). rewrite powers_shift, IH. ring.
  Qed.
  Lemma dval_reduce n l alpha c lv nv : t_reduce n l alpha = Ok c -> dval c lv nv = powers_total F (phi alpha) (map (fun a => dval a lv nv) l).
  Proof.
    rewrite <- horner_powers. revert c. induction l as [|a l IH]; intros c; cbn [t_reduce map horner fold_right]; [intros [= <-]; apply dval_zero|].
    intros E. obind E. obind E. rewrite (dval_add _ _ _ _ _ E), (dval_mul _ _ _ _ _ E1), (IH _ eq_refl). reflexivity.
  Qed.
  Lemma dval_scaled l k ms lv nv : t_scaled (Z.of_nat k) l = Ok ms -> map (fun a => dval a lv nv) ms = map (fun '(i, x) => mul x (phi (Z.of_nat i))) (combine (seq k (length l)) (map (fun a => dval a lv nv) l)).
  Proof.
    revert k ms. induction l as [|a l IH]; intros k ms; cbn; [intros [= <-]; reflexivity|]. intros E. obind E. obind E. injection E as <-.
    cbn. rewrite (dval_mul _ _ _ _ _ E0). f_equal. replace (Z.of_nat k + 1) with (Z.of_nat (S k)) in E1 by lia. rewrite (IH _ _ E1). reflexivity.
  Qed.
  Lemma dval_ascending n l c lv nv : t_ascending n l = Ok c -> dval c lv nv = ascending_total F (map (fun a => dval a lv nv) l).
  Proof. unfold t_ascending, ascending_total. intros E. obind E. rewrite (dval_sum _ _ _ _ _ E), (dval_scaled l 0 _ lv nv E0), map_length. reflexivity. Qed.

  (** ** Programs over typed columns *)
  Definition means (n : nat) (lv nv : list R) (c : typed) (d : list R -> list R -> R) : Prop := dval c lv nv = d lv nv /\ dval c nv lv = d nv lv.
  Lemma d_at_means n lv nv cs ds i : Forall2 (fun c d => dval c lv nv = d lv nv) cs ds -> dval (t_at n cs i) lv nv = d_at F ds i lv nv.
  Proof.
    intros H. unfold t_at, d_at. revert i. induction H as [|c d cs ds E _ IH]; intros i; destruct i; cbn; auto using dval_zero.
  Qed.
  Lemma d_ats_means n lv nv cs ds is : Forall2 (fun c d => dval c lv nv = d lv nv) cs ds ->
    map (fun a => dval a lv nv) (map (t_at n cs) is) = map (fun i => d_at F ds i lv nv) is.
  Proof. intros H. rewrite map_map. apply map_ext. intros i. apply d_at_means, H. Qed.
  Lemma nth_insert_out n i (row : list R) : (n <= i)%nat -> dot (<[i := 1]> (view_zero n)) row = zero.
  Proof. intros L. rewrite list_insert_ge; [apply dot_zero|]. unfold view_zero. rewrite repeat_length. exact L. Qed.
  Lemma t_step_means n cs ds c x lv nv : length lv = n -> length nv = n ->
    Forall2 (fun c d => dval c lv nv = d lv nv) cs ds -> Forall2 (fun c d => dval c nv lv = d nv lv) cs ds ->
    t_step n cs c = Ok x -> dval x lv nv = t_value F c ds lv nv.
  Proof.
    intros L1 L2 H H'. destruct c; cbn [t_step t_value]; intros E.
    - injection E as <-. unfold dval; cbn. rewrite dot_zero, (rc_0 F HF). destruct (le_lt_dec n i) as [L|L].
      + rewrite nth_insert_out by exact L. rewrite nth_overflow by lia. ring.
      + rewrite dot_unit by exact L. ring.
    - injection E as <-. unfold dval; cbn. rewrite !dot_zero. ring.
    - injection E as <-. rewrite dval_flip. apply d_at_means, H'.
    - unfold t_diff in E. rewrite (dval_sub _ _ _ _ _ E), dval_flip, (d_at_means n lv nv cs ds _ H), (d_at_means n nv lv cs ds _ H'). reflexivity.
    - rewrite (dval_neg _ _ _ _ E), (d_at_means n lv nv cs ds _ H). reflexivity.
    - unfold t_not in E. rewrite (dval_int_sub _ _ _ _ _ E), (d_at_means n lv nv cs ds _ H), (rc_1 F HF). reflexivity.
    - rewrite (dval_add _ _ _ _ _ E), !(d_at_means n lv nv cs ds _ H). reflexivity.
    - rewrite (dval_sub _ _ _ _ _ E), !(d_at_means n lv nv cs ds _ H). reflexivity.
    - rewrite (dval_add_int _ _ _ _ _ E), !(d_at_means n lv nv cs ds _ H). reflexivity.
    - rewrite (dval_sub_int _ _ _ _ _ E), !(d_at_means n lv nv cs ds _ H). reflexivity.
    - rewrite (dval_int_sub _ _ _ _ _ E), !(d_at_means n lv nv cs ds _ H). reflexivity.
    - rewrite (dval_mul _ _ _ _ _ E), !(d_at_means n lv nv cs ds _ H). reflexivity.
    - rewrite (dval_sum _ _ _ _ _ E), (d_ats_means _ _ _ _ _ _ H). reflexivity.
    - rewrite (dval_reduce _ _ _ _ _ _ E), (d_ats_means _ _ _ _ _ _ H). reflexivity.
    - rewrite (dval_ascending _ _ _ _ _ E), (d_ats_means _ _ _ _ _ _ H). reflexivity.
  Qed.
  Lemma t_run_means n p : forall cs ds cs' lv nv, length lv = n -> length nv = n ->
    Forall2 (fun c d => dval c lv nv = d lv nv) cs ds -> Forall2 (fun c d => dval c nv lv = d nv lv) cs ds ->
    t_run n p cs = Ok cs' -> Forall2 (fun c d => dval c lv nv = d lv nv) cs' (t_denote F p ds).
  Proof.
    induction p as [|c p IH]; intros cs ds cs' lv nv L1 L2 H H' E; cbn in *; [injection E as <-; exact H|]. obind E.
    eapply (IH _ _ _ lv nv L1 L2); [| |exact E]; (apply Forall2_app; [assumption|constructor; [|constructor]]).
    - eapply t_step_means; eassumption.
    - eapply t_step_means; eassumption.
  Qed.

  (** ** Sparse columns *)
  Lemma sparse_dot v : forall k row, total F (map (fun '(i, c) => mul (nth i row zero) (phi c)) (to_sparse k v)) = dot v (drop k row).
  Proof.
    induction v as [|x v IH]; intros k row; cbn [to_sparse dot map total]; [reflexivity|].
    assert (D : forall r, nth k row zero = r \/ True) by auto. clear D.
    destruct (drop k row) as [|r rest] eqn:Dr.
    - assert (Lk : (length row <= k)%nat). { apply (f_equal length) in Dr. rewrite drop_length in Dr. cbn in Dr. lia. }
      assert (Z0 : dot v (drop (S k) row) = zero). { rewrite drop_ge by lia. destruct v; reflexivity. }
      destruct (x =? 0) eqn:Ex; cbn [map total]; rewrite IH, Z0; [reflexivity|]. rewrite nth_overflow by exact Lk. ring.
    - assert (Dk : drop (S k) row = rest). { replace (S k) with (k + 1)%nat by lia. rewrite <- drop_drop, Dr. reflexivity. }
      assert (Nk : nth k row zero = r). { rewrite <- (take_drop k row), Dr, app_nth2; rewrite take_length; [|lia].
        assert (k < length row)%nat. { destruct (le_lt_dec (length row) k) as [L|L]; [|exact L]. rewrite drop_ge in Dr by exact L. discriminate Dr. }
        replace (k - k `min` length row)%nat with 0%nat by lia. reflexivity. }
      destruct (x =? 0) eqn:Ex; cbn [map total]; rewrite IH, Dk.
      + apply Z.eqb_eq in Ex as ->. rewrite (rc_0 F HF). ring.
      + rewrite Nk. ring.
  Qed.
  Lemma from_typed_value c lv nv : column_value F phi (from_typed c) lv nv = dval c lv nv.
  Proof. unfold column_value, terms_value, dval, from_typed; cbn [s_lv s_nv s_const]. rewrite !sparse_dot, !drop_0. reflexivity. Qed.
  Lemma to_sparse_within v : forall k, Forall (fun x => (fst x < k + length v)%nat) (to_sparse k v).
  Proof.
    induction v as [|x v IH]; intros k; cbn [to_sparse length]; [constructor|]. specialize (IH (S k)).
    assert (G : Forall (fun y : nat * Z => (fst y < k + S (length v))%nat) (to_sparse (S k) v)). { revert IH. apply List.Forall_impl. intros [? ?]; cbn; lia. }
    destruct (x =? 0); [exact G|]. constructor; [cbn; lia|exact G].
  Qed.

  Section Coef.
    Context {T : Type} (N : num T) (h : T -> R) (H0 : h (n_0 N) = zero)
      (Hadd : forall a b c, n_add N a b = Ok c -> h c = add (h a) (h b)) (Hmul : forall a b c, n_mul N a b = Ok c -> h c = mul (h a) (h b))
      (Hneg : forall a c, n_neg N a = Ok c -> h c = neg (h a)).
    Notation tv := (terms_value F h). Notation cv := (column_value F h).
    Lemma tv_cons i a l row : tv ((i, a) :: l) row = add (mul (nth i row zero) (h a)) (tv l row). Proof. reflexivity. Qed.
    Lemma tv_insert x l row : tv (insert_key x l) row = tv (x :: l) row.
    Proof.
      induction l as [|y l IH]; [reflexivity|]. cbn [insert_key]. destruct (_ <=? _)%nat; [reflexivity|]. destruct x as [i a], y as [j b].
      rewrite tv_cons, IH, !tv_cons. ring.
    Qed.
    Lemma tv_sort l row : tv (sort_by_key l) row = tv l row.
    Proof. induction l as [|[i a] l IH]; [reflexivity|]. cbn [sort_by_key fold_right]. rewrite tv_insert, !tv_cons. fold (sort_by_key l). rewrite IH. reflexivity. Qed.
    Lemma tv_merge l : forall r c row, merge_join (n_add N) l r = Ok c -> tv c row = add (tv l row) (tv r row).
    Proof.
      induction l as [|[i a] l IHl]; intros r c row.
      - destruct r; cbn; intros [= <-]; unfold terms_value; cbn; ring.
      - revert c. induction r as [|[j b] r IHr]; intros c; [cbn; intros [= <-]; unfold terms_value; cbn; ring|].
        cbn [merge_join]. destruct (Nat.compare_spec i j) as [E|E|E]; intros H.
        + obind H. obind H. injection H as <-. subst j. rewrite !tv_cons, (IHl _ _ _ E1), (Hadd _ _ _ E0). ring.
        + obind H. injection H as <-. rewrite !tv_cons, (IHl _ _ _ E0), tv_cons. ring.
        + obind H. injection H as <-. rewrite !tv_cons. specialize (IHr _ E0). rewrite IHr, !tv_cons. ring.
    Qed.
    Lemma tv_map_inv (f : T -> res T) (g : R -> R) l l' row : (forall x a c, f a = Ok c -> mul x (h c) = g (mul x (h a))) -> (forall p q, add (g p) (g q) = g (add p q)) -> g zero = zero ->
      map_coefs f l = Ok l' -> tv l' row = g (tv l row).
    Proof.
      intros H1 H2 H3. unfold map_coefs. revert l'. induction l as [|[i a] l IH]; intros l'; cbn; [intros [= <-]; unfold terms_value; cbn; auto|].
      intros E. obind E. obind E. obind E0. injection E0 as <-. injection E as <-. rewrite !tv_cons, (IH _ eq_refl). rewrite (H1 _ _ _ E2), H2. reflexivity.
    Qed.
    Lemma cv_zero lv nv : cv (s_zero N) lv nv = zero.
    Proof. unfold column_value, terms_value; cbn. rewrite H0. ring. Qed.
    Lemma cv_neg a c lv nv : s_neg N a = Ok c -> cv c lv nv = neg (cv a lv nv).
    Proof.
      unfold s_neg, s_map. intros E. obind E. obind E. obind E. injection E as <-. unfold column_value; cbn [s_lv s_nv s_const].
      rewrite (tv_map_inv _ neg _ _ lv) with (4 := E0); [|intros ? ? ? Hc; rewrite (Hneg _ _ Hc); ring|intros; ring|ring].
      rewrite (tv_map_inv _ neg _ _ nv) with (4 := E1); [|intros ? ? ? Hc; rewrite (Hneg _ _ Hc); ring|intros; ring|ring]. rewrite (Hneg _ _ E2). ring.
    Qed.
    Lemma cv_mul a k c lv nv : s_mul N a k = Ok c -> cv c lv nv = mul (cv a lv nv) (h k).
    Proof.
      unfold s_mul, s_map. intros E. obind E. obind E. obind E. injection E as <-. unfold column_value; cbn [s_lv s_nv s_const].
      rewrite (tv_map_inv _ (fun x => mul x (h k)) _ _ lv) with (4 := E0); [|intros ? ? ? Hc; rewrite (Hmul _ _ _ Hc); ring|intros; ring|ring].
      rewrite (tv_map_inv _ (fun x => mul x (h k)) _ _ nv) with (4 := E1); [|intros ? ? ? Hc; rewrite (Hmul _ _ _ Hc); ring|intros; ring|ring]. rewrite (Hmul _ _ _ E2). ring.
    Qed.
    Lemma cv_add a b c lv nv : s_add N a b = Ok c -> cv c lv nv = add (cv a lv nv) (cv b lv nv).
    Proof.
      unfold s_add, s_zip. intros E. obind E. obind E. obind E. injection E as <-. unfold column_value; cbn [s_lv s_nv s_const].
      rewrite (tv_merge _ _ _ _ E0), (tv_merge _ _ _ _ E1), !tv_sort, (Hadd _ _ _ E2). ring.
    Qed.
    Lemma cv_add_const a k c lv nv : s_add_const N a k = Ok c -> cv c lv nv = add (cv a lv nv) (h k).
    Proof. unfold s_add_const. intros E. obind E. injection E as <-. unfold column_value; cbn [s_lv s_nv s_const]. rewrite (Hadd _ _ _ E0). ring. Qed.
    Lemma cv_sub a b c lv nv : s_sub N a b = Ok c -> cv c lv nv = add (cv a lv nv) (neg (cv b lv nv)).
    Proof. unfold s_sub. intros E. obind E. rewrite (cv_add _ _ _ _ _ E), (cv_neg _ _ _ _ E0). reflexivity. Qed.
    Lemma cv_sum_from l acc c lv nv : s_sum_from N acc l = Ok c -> cv c lv nv = add (cv acc lv nv) (total F (map (fun a => cv a lv nv) l)).
    Proof. revert acc. induction l as [|a l IH]; intros acc; cbn; [intros [= <-]; ring|]. intros E. obind E. rewrite (IH _ E), (cv_add _ _ _ _ _ E0). ring. Qed.
    Lemma cv_sum l c lv nv : s_sum N l = Ok c -> cv c lv nv = total F (map (fun a => cv a lv nv) l).
    Proof. destruct l as [|a l]; cbn [s_sum]; [intros [= <-]; apply cv_zero|]. intros E. rewrite (cv_sum_from _ _ _ _ _ E). reflexivity. Qed.
    Lemma s_at_means lv nv cs ds i : Forall2 (fun c d => cv c lv nv = d lv nv) cs ds -> cv (s_at N cs i) lv nv = d_at F ds i lv nv.
    Proof. intros H. unfold s_at, d_at. revert i. induction H as [|c d cs ds E _ IH]; intros i; destruct i; cbn; auto using cv_zero. Qed.
    Lemma s_step_means cs ds c x lv nv : Forall2 (fun c d => cv c lv nv = d lv nv) cs ds -> s_step N cs c = Ok x -> cv x lv nv = s_value F h c ds lv nv.
    Proof.
      intros H. destruct c; cbn [s_step s_value]; intros E.
      - rewrite (cv_neg _ _ _ _ E), (s_at_means _ _ _ _ _ H). reflexivity.
      - rewrite (cv_add _ _ _ _ _ E), !(s_at_means _ _ _ _ _ H). reflexivity.
      - rewrite (cv_sub _ _ _ _ _ E), !(s_at_means _ _ _ _ _ H). reflexivity.
      - rewrite (cv_add_const _ _ _ _ _ E), !(s_at_means _ _ _ _ _ H). reflexivity.
      - rewrite (cv_mul _ _ _ _ _ E), !(s_at_means _ _ _ _ _ H). reflexivity.
      - rewrite (cv_sum _ _ _ _ E), map_map. f_equal. apply map_ext. intros i. apply s_at_means, H.
    Qed.
    Lemma s_run_means p : forall cs ds cs' lv nv, Forall2 (fun c d => cv c lv nv = d lv nv) cs ds -> s_run N p cs = Ok cs' ->
      Forall2 (fun c d => cv c lv nv = d lv nv) cs' (s_denote F h p ds).
    Proof.
      induction p as [|c p IH]; intros cs ds cs' lv nv H E; cbn in *; [injection E as <-; exact H|]. obind E.
      eapply IH; [|exact E]. apply Forall2_app; [assumption|]. constructor; [|constructor]. eapply s_step_means; eassumption.
    Qed.
    Lemma compose_value cols beta gamma c lv nv : compose_ctl_with_challenge N cols beta gamma = Ok c ->
      cv c lv nv = add (powers_total F (h beta) (map (fun a => cv a lv nv) cols)) (h gamma).
    Proof.
      unfold compose_ctl_with_challenge. intros E. obind E. rewrite (cv_add_const _ _ _ _ _ E). f_equal. clear E c.
      rewrite <- horner_powers. revert a E0. induction cols as [|c cols IH]; intros a; cbn [s_compose_beta map horner fold_right]; [intros [= <-]; apply cv_zero|].
      intros E. obind E. obind E. rewrite (cv_add _ _ _ _ _ E), (cv_mul _ _ _ _ _ E1), (IH _ eq_refl). reflexivity.
    Qed.
  End Coef.

  (** ** Evaluation *)
  Lemma get_nth (row : list R) i : (i < length row)%nat -> get row i = Ok (nth i row zero).
  Proof. intros L. unfold get. destruct (lookup_lt_is_Some_2 row i L) as [x E]. rewrite E. f_equal. symmetry. apply nth_lookup_Some. exact E. Qed.
  Lemma eval_row_value c lv nv n : within n c -> length lv = n -> length nv = n -> eval_row F c lv nv = Ok (column_value F phi c lv nv).
  Proof.
    intros [W1 W2] L1 L2. unfold eval_row.
    rewrite (map_res_ok _ (fun '(i, f) => mul (nth i lv zero) (phi f))); cycle 1.
    { revert W1. apply List.Forall_impl. intros [i f] L. cbn in L. rewrite get_nth by lia. reflexivity. }
    cbn. rewrite (map_res_ok _ (fun '(i, f) => mul (nth i nv zero) (phi f))); cycle 1.
    { revert W2. apply List.Forall_impl. intros [i f] L. cbn in L. rewrite get_nth by lia. reflexivity. }
    cbn. rewrite !r_sum_total. reflexivity.
  Qed.
  Lemma row_of_length (table : list (list R)) r : length (row_of F table r) = length table.
  Proof. apply map_length. Qed.
  Lemma row_of_nth (table : list (list R)) r i : (i < length table)%nat -> nth i (row_of F table r) zero = nth r (nth i table []) zero.
  Proof. intros L. unfold row_of. rewrite (nth_indep _ zero ((fun col => nth r col zero) [])) by (rewrite map_length; exact L). apply (map_nth (fun col => nth r col zero)). Qed.
  Lemma get_cell (table : list (list R)) n ht i r : is_table n ht table -> (i < n)%nat -> (r < ht)%nat ->
    get table i = Ok (nth i table []) /\ length (nth i table []) = ht /\ get (nth i table []) r = Ok (nth i (row_of F table r) zero).
  Proof.
    intros [L1 L2] Li Lr. destruct (lookup_lt_is_Some_2 table i) as [col E]; [lia|]. assert (En : nth i table [] = col) by (apply nth_lookup_Some; exact E).
    rewrite En. unfold get at 1. rewrite E. rewrite List.Forall_forall in L2. assert (Lc : length col = ht) by (apply L2, elem_of_list_In, (elem_of_list_lookup_2 _ i), E).
    split; [reflexivity|]. split; [exact Lc|]. rewrite get_nth by lia. rewrite row_of_nth, En by lia. reflexivity.
  Qed.
  Lemma eval_table_value (c : sparse R) table n ht r : within n c -> is_table n ht table -> (r < ht)%nat ->
    eval_table F c table r = Ok (column_value F (fun x => x) c (row_of F table r) (row_of F table ((r + 1) mod ht))).
  Proof.
    intros [W1 W2] HT Lr. unfold eval_table.
    rewrite (map_res_ok _ (fun '(i, f) => mul (nth i (row_of F table r) zero) f)); cycle 1.
    { revert W1. apply List.Forall_impl. intros [i f] L. cbn in L. destruct (get_cell table n ht i r HT L Lr) as (-> & _ & E). cbn. rewrite E. reflexivity. }
    cbn [rbind]. rewrite (map_res_ok _ (fun '(i, f) => mul (nth i (row_of F table ((r + 1) mod ht)) zero) f)); cycle 1.
    { revert W2. apply List.Forall_impl. intros [i f] L. cbn in L. assert (Lm : ((r + 1) mod ht < ht)%nat) by (apply Nat.mod_upper_bound; lia).
      destruct (get_cell table n ht i _ HT L Lm) as (-> & Ll & E). cbn. rewrite Ll, E. reflexivity. }
    cbn [rbind]. rewrite !r_sum_total. reflexivity.
  Qed.
  Lemma to_field_value c : exists c', to_field F c = Ok c' /\ (forall n, within n c -> within n c') /\ forall lv nv, column_value F (fun x => x) c' lv nv = column_value F phi c lv nv.
  Proof.
    unfold to_field, s_map, map_coefs.
    rewrite (map_res_ok _ (fun '(i, k) => (i, phi k))) by (apply List.Forall_forall; intros [i k] _; reflexivity). cbn [rbind].
    rewrite (map_res_ok _ (fun '(i, k) => (i, phi k))) by (apply List.Forall_forall; intros [i k] _; reflexivity). cbn [rbind].
    eexists. split; [reflexivity|]. split.
    - intros n [W1 W2]. split; cbn; rewrite List.Forall_map; [revert W1|revert W2]; apply List.Forall_impl; intros [i k]; cbn; auto.
    - intros lv nv. unfold column_value, terms_value; cbn. rewrite !map_map. do 2 f_equal; f_equal; apply map_ext; intros [i k]; reflexivity.
  Qed.

  (** ** Composition keeps the columns *)
  Lemma within_insert {T} n (x : nat * T) l : (fst x < n)%nat -> Forall (fun x => (fst x < n)%nat) l -> Forall (fun x => (fst x < n)%nat) (insert_key x l).
  Proof. intros L H. induction H as [|y l Hy Hl IH]; cbn; [constructor; auto|]. destruct (_ <=? _)%nat; repeat constructor; auto. Qed.
  Lemma within_sort {T} n (l : list (nat * T)) : Forall (fun x => (fst x < n)%nat) l -> Forall (fun x => (fst x < n)%nat) (sort_by_key l).
  Proof. induction 1 as [|x l Hx _ IH]; cbn; [constructor|]. apply within_insert; assumption. Qed.
  Lemma within_merge {T} n (f : T -> T -> res T) l : forall r c, Forall (fun x => (fst x < n)%nat) l -> Forall (fun x => (fst x < n)%nat) r -> merge_join f l r = Ok c -> Forall (fun x => (fst x < n)%nat) c.
  Proof.
    induction l as [|[i a] l IHl]; intros r c Hl Hr; [destruct r; cbn; intros [= <-]; assumption|]. inversion Hl as [|? ? Hi Hl']; subst. clear Hl.
    revert c Hr. induction r as [|[j b] r IHr]; intros c Hr; [cbn; intros [= <-]; constructor; assumption|]. inversion Hr as [|? ? Hj Hr']; subst.
    cbn [merge_join]. destruct (i ?= j)%nat; intros E.
    - obind E. obind E. injection E as <-. constructor; [assumption|]. eapply IHl; [assumption| |eassumption]. assumption.
    - obind E. injection E as <-. constructor; [assumption|]. eapply IHl; [assumption| |eassumption]. assumption.
    - obind E. injection E as <-. constructor; [assumption|]. eapply IHr; [|eassumption]. assumption.
  Qed.
  Lemma merge_cells_ok (l : list (nat * R)) : forall r, exists c, merge_join (fun a b => Ok (add a b)) l r = Ok c.
  Proof.
    induction l as [|[i a] l IHl]; intros r; [destruct r; eexists; reflexivity|]. induction r as [|[j b] r [c IHr]]; [eexists; reflexivity|].
    cbn [merge_join]. destruct (i ?= j)%nat.
    - destruct (IHl r) as [c' ->]. eexists; reflexivity.
    - destruct (IHl ((j, b) :: r)) as [c' ->]. eexists; reflexivity.
    - cbn [merge_join] in IHr. rewrite IHr. eexists; reflexivity.
  Qed.
  Lemma s_add_cells n a b : within n a -> within n b -> exists c, s_add (num_cells F) a b = Ok c /\ within n c.
  Proof.
    intros [A1 A2] [B1 B2]. unfold s_add, s_zip. cbn [n_add num_cells].
    destruct (merge_cells_ok (sort_by_key (s_lv a)) (sort_by_key (s_lv b))) as [l El]. rewrite El. cbn [rbind].
    destruct (merge_cells_ok (sort_by_key (s_nv a)) (sort_by_key (s_nv b))) as [v Ev]. rewrite Ev. cbn [rbind]. eexists. split; [reflexivity|].
    split; cbn; [eapply (within_merge n _ _ _ _); [| |exact El]|eapply (within_merge n _ _ _ _); [| |exact Ev]]; apply within_sort; assumption.
  Qed.
  Lemma s_mul_cells n a k : within n a -> exists c, s_mul (num_cells F) a k = Ok c /\ within n c.
  Proof.
    intros [A1 A2]. unfold s_mul, s_map, map_coefs. cbn [n_mul num_cells].
    rewrite (map_res_ok _ (fun '(i, c) => (i, mul c k))) by (apply List.Forall_forall; intros [i c] _; reflexivity). cbn [rbind].
    rewrite (map_res_ok _ (fun '(i, c) => (i, mul c k))) by (apply List.Forall_forall; intros [i c] _; reflexivity). cbn [rbind].
    eexists. split; [reflexivity|]. split; cbn; rewrite List.Forall_map; [revert A1|revert A2]; apply List.Forall_impl; intros [i c]; cbn; auto.
  Qed.
  Lemma compose_cells n cols beta gamma : Forall (within n) cols -> exists c, compose_ctl_with_challenge (num_cells F) cols beta gamma = Ok c /\ within n c.
  Proof.
    intros H. assert (G : exists a, s_compose_beta (num_cells F) cols beta = Ok a /\ within n a).
    { induction H as [|c cols Hc _ (a & Ea & Wa)]; [eexists; split; [reflexivity|split; constructor]|]. cbn [s_compose_beta]. rewrite Ea. cbn [rbind].
      destruct (s_mul_cells n a beta Wa) as (m & Em & Wm). rewrite Em. cbn [rbind]. apply s_add_cells; assumption. }
    destruct G as (a & Ea & Wa). unfold compose_ctl_with_challenge. rewrite Ea. eexists. split; [reflexivity|exact Wa].
  Qed.

  Lemma to_fields cols : exists fs, map_res (to_field F) cols = Ok fs /\ (forall n, Forall (within n) cols -> Forall (within n) fs) /\
    forall lv nv, map (fun a => column_value F (fun x => x) a lv nv) fs = map (fun a => column_value F phi a lv nv) cols.
  Proof.
    induction cols as [|c cols (fs & E & W & V)]; [exists []; repeat split; auto|]. destruct (to_field_value c) as (c' & E' & W' & V'). exists (c' :: fs).
    cbn. rewrite E'. cbn. rewrite E. split; [reflexivity|]. split.
    - intros n H. inversion H; subst. constructor; auto.
    - intros lv nv. f_equal; auto.
  Qed.
  Lemma r_reduce_powers l b : r_reduce F l b = powers_total F b l.
  Proof. apply horner_powers. Qed.

  (** ** Circuits *)
  Lemma alloc_ok l : forall row k p k', alloc_pairs l row k = Ok (p, k') -> Forall (fun t => (t < length k)%nat) row ->
    extends k k' /\ Forall (fun '(v, t) => (v < length k')%nat /\ (t < length k')%nat) p /\
    forall w, satisfies (cell_values F) w k' -> map (fun '(v, t) => mul (w v) (w t)) p = map (fun '(i, c) => mul (nth i (map w row) zero) (phi c)) l.
  Proof.
    induction l as [|[i f] l IH]; intros row k p k' E L; cbn [alloc_pairs] in E.
    - injection E as <- <-. split; [apply extends_r|]. split; [constructor|reflexivity].
    - obind E. destruct (gate_new _ k) as [t k1] eqn:E1. obind E. destruct a0 as [q k2]. cbn in E. injection E as <- <-.
      destruct (extends_new _ _ _ _ E1) as (X1 & G1 & Lt); [constructor|]. pose proof (extends_length _ _ X1) as Le.
      destruct (IH row k1 q k2 E2) as (X2 & P2 & V2). { revert L. apply List.Forall_impl. intros; lia. } pose proof (extends_length _ _ X2) as Le2.
      assert (Lv : row !! i = Some a). { unfold get in E0. destruct (row !! i); congruence. }
      assert (La : (a < length k)%nat). { rewrite List.Forall_forall in L. apply L, elem_of_list_In, (elem_of_list_lookup_2 _ i), Lv. }
      split; [eapply extends_t; eassumption|]. split; [constructor; [lia|exact P2]|]. intros w S. cbn [map]. rewrite (V2 w S). f_equal.
      f_equal; [symmetry; apply nth_lookup_Some; rewrite list_lookup_fmap, Lv; reflexivity|].
      exact (satisfies_prefix _ w _ _ X2 S _ _ G1).
  Qed.
  Lemma alloc_total l row k : Forall (fun x => (fst x < length row)%nat) l -> exists p k', alloc_pairs l row k = Ok (p, k').
  Proof.
    intros H. revert k. induction H as [|[i f] l Hi _ IH]; intros k; cbn; [eauto|]. cbn in Hi. unfold get. destruct (lookup_lt_is_Some_2 row i Hi) as [x ->]. cbn.
    destruct (IH (k ++ [GConst f])) as (p & k' & E). unfold gate_new. rewrite E. eauto.
  Qed.
  Lemma inner_ok pairs : forall acc k t k', inner_product pairs acc k = (t, k') -> Forall (fun '(v, t) => (v < length k)%nat /\ (t < length k)%nat) pairs -> (acc < length k)%nat ->
    extends k k' /\ (t < length k')%nat /\
    forall w, satisfies (cell_values F) w k' -> w t = add (w acc) (total F (map (fun '(v, t) => mul (w v) (w t)) pairs)).
  Proof.
    induction pairs as [|[v u] pairs IH]; intros acc k t k' E H L; cbn [inner_product] in E.
    - injection E as <- <-. split; [apply extends_r|]. split; [exact L|]. intros w _. cbn. ring.
    - destruct (gate_new _ k) as [a k1] eqn:E1. inversion H as [|? ? H12 H']; subst. destruct H12 as [H1 H2].
      destruct (extends_new _ _ _ _ E1) as (X1 & G1 & Lt); [repeat constructor; assumption|]. pose proof (extends_length _ _ X1) as Le.
      destruct (IH a k1 t k' E) as (X2 & Lt2 & V2); [revert H'; apply List.Forall_impl; intros [? ?]; lia|exact Lt|].
      split; [eapply extends_t; eassumption|]. split; [exact Lt2|]. intros w S. rewrite (V2 w S).
      pose proof (satisfies_prefix _ w _ _ X2 S _ _ G1) as G. cbn in G. rewrite G. cbn. ring.
  Qed.
  Lemma eval_circuit_ok c lv nv n k : within n c -> length lv = n -> length nv = n -> Forall (fun t => (t < length k)%nat) lv -> Forall (fun t => (t < length k)%nat) nv ->
    exists t k', eval_circuit c lv nv k = Ok (t, k') /\ extends k k' /\ (t < length k')%nat /\
      forall w, satisfies (cell_values F) w k' -> w t = column_value F phi c (map w lv) (map w nv).
  Proof.
    intros [W1 W2] L1 L2 B1 B2. unfold eval_circuit. destruct (alloc_total (s_lv c) lv k) as (p & k1 & E1); [rewrite L1; exact W1|]. rewrite E1. cbn [rbind snd fst].
    destruct (alloc_ok _ _ _ _ _ E1 B1) as (X1 & P1 & V1). pose proof (extends_length _ _ X1) as Le1.
    destruct (alloc_total (s_nv c) nv k1) as (q & k2 & E2); [rewrite L2; exact W2|]. rewrite E2. cbn [rbind snd fst].
    destruct (alloc_ok _ _ _ _ _ E2) as (X2 & P2 & V2). { revert B2. apply List.Forall_impl. intros; lia. } pose proof (extends_length _ _ X2) as Le2.
    destruct (gate_new (GConst (s_const c)) k2) as [a k3] eqn:E3. destruct (extends_new _ _ _ _ E3) as (X3 & G3 & L3); [constructor|]. pose proof (extends_length _ _ X3) as Le3.
    destruct (inner_product (p ++ q) a k3) as [t k4] eqn:E4. destruct (inner_ok _ _ _ _ _ E4) as (X4 & L4 & V4).
    { apply List.Forall_app. split; [revert P1|revert P2]; apply List.Forall_impl; intros [? ?]; lia. } { exact L3. }
    exists t, k4. split; [reflexivity|]. split; [repeat (eapply extends_t; [eassumption|]); apply extends_r|]. split; [exact L4|]. intros w S.
    pose proof (satisfies_prefix _ w _ _ X4 S) as S3. pose proof (satisfies_prefix _ w _ _ X3 S3) as S2. pose proof (satisfies_prefix _ w _ _ X2 S2) as S1.
    rewrite (V4 w S), map_app, total_app, (V1 w S1), (V2 w S2). pose proof (S3 _ _ G3) as Ga. cbn in Ga. rewrite Ga. unfold column_value, terms_value. ring.
  Qed.
End Ring.
