(** Ingesting the programs of a cast, one by one. *)
From stdpp Require Import prelude.
From Verif Require Import Field NodeTreeModel NodeTreeSpec NodeTreeProofs NodeAddr.
Open Scope Z_scope.

(** ingest a sequence of (index, result); [None] when one of them is rejected or panics *)
Section Seq.
  Context {X : Type} (join : X -> X -> option X).
  Fixpoint ingest_all (n : nat) (st : option (onode X)) (l : list (nat * X)) : option (option (onode X)) :=
    match l with
    | [] => Some st
    | (i, x) :: r => match ingest join n st i (Some x) with IOk t => ingest_all n (Some t) r | _ => None end
    end.
End Seq.

  Lemma testbit_off b off : Z.testbit (Z.of_nat off) (Z.of_nat b) = negb (off / 2 ^ b mod 2 =? 0)%nat.
  Proof.
    rewrite Z.testbit_eqb by lia. rewrite <- (pow2_Z b), <- Nat2Z.inj_div. change 2 with (Z.of_nat 2). rewrite <- Nat2Z.inj_mod.
    pose proof (Nat.mod_upper_bound (off / 2 ^ b) 2). destruct (off / 2 ^ b mod 2)%nat as [|[|]]; auto. lia.
  Qed.
  Lemma land_off b off : Z.land (Z.of_nat off) (Z.shiftl 1 (Z.of_nat b) - 1) = Z.of_nat (off mod 2 ^ b).
  Proof.
    rewrite Z.shiftl_mul_pow2, Z.mul_1_l by lia. replace (2 ^ Z.of_nat b - 1) with (Z.ones (Z.of_nat b)) by (rewrite Z.ones_equiv; lia).
    rewrite Z.land_ones by lia. rewrite <- pow2_Z, <- Nat2Z.inj_mod. auto.
  Qed.
  Definition pth (b off : nat) : option (nat * Z) := match b with O => None | S h => Some (h, Z.of_nat off) end.
  Lemma digits_bitlen n : Z.to_nat (bitlen (Z.of_nat n)) = digits n.
  Proof.
    destruct n as [|n]; [auto|]. unfold bitlen, digits. replace (Z.of_nat (S n) =? 0) with false by (symmetry; apply Z.eqb_neq; lia).
    pose proof (Nat.log2_spec (S n) ltac:(lia)) as B. set (k := Nat.log2 (S n)) in *.
    assert (E : Z.log2 (Z.of_nat (S n)) = Z.of_nat k).
    { apply Z.log2_unique; [lia|]. rewrite <- pow2_Z. replace (Z.succ (Z.of_nat k)) with (Z.of_nat (S k)) by lia. rewrite <- pow2_Z. lia. }
    rewrite E. lia.
  Qed.
  Lemma digits_bound n : (n < 2 ^ digits n)%nat.
  Proof. destruct n as [|n]; [cbn; lia|]. unfold digits. pose proof (Nat.log2_spec (S n) ltac:(lia)). lia. Qed.
  Lemma path_pth n i : cast_path n i = pth (digits n) i.
  Proof. unfold cast_path, pth. rewrite digits_bitlen. auto. Qed.

  Lemma fits_full b : fits (2 ^ b) b = true.
  Proof.
    induction b; [auto|]. cbn [fits]. apply orb_true_iff. right. pose proof (Nat.pow_nonzero 2 b). 
    rewrite !andb_true_iff. split; [split; [apply Nat.ltb_lt|apply Nat.leb_le]; cbn [Nat.pow]; lia|].
    replace (2 ^ S b - 2 ^ b)%nat with (2 ^ b)%nat by (cbn [Nat.pow]; lia). auto.
  Qed.
Section Good.
  Context {X : Type} (j : X -> X -> X) (f : nat -> X).
  Notation join := (fun a b => Some (j a b)).
  Definition node2 (a b : onode X) : onode X := match a, b with OProc x, OProc y => OProc (j x y) | _, _ => OBr a b end.
  (** the tree over programs s .. s + m - 1 (at most 2^k) of which those in D are done *)
  Fixpoint st (k s m : nat) (D : nat -> bool) : onode X :=
    match k with
    | O => if D s then OProc (f s) else OLf
    | S k => if (m <=? 2 ^ k)%nat then st k s m D else node2 (st k s (2 ^ k) D) (st k (s + 2 ^ k) (m - 2 ^ k) D)
    end.
  Lemma st_ext k : forall s m D D', (forall i, (s <= i < s + m)%nat -> D i = D' i) -> (1 <= m)%nat -> st k s m D = st k s m D'.
  Proof.
    induction k; intros s m D D' E L; cbn [st]. { rewrite E by lia. auto. }
    destruct (Nat.leb_spec m (2 ^ k)); [apply IHk; auto|]. pose proof (Nat.pow_nonzero 2 k). f_equal; apply IHk; try lia; intros i Li; apply E; lia.
  Qed.
  Lemma st_one k s D : st k s 1 D = if D s then OProc (f s) else OLf.
  Proof. induction k; cbn [st]; [auto|]. replace (1 <=? 2 ^ k)%nat with true; [auto|]. symmetry. apply Nat.leb_le. pose proof (Nat.pow_nonzero 2 k). lia. Qed.
  (** processed exactly when all are done *)
  Lemma st_done k : forall s m D, (1 <= m <= 2 ^ k)%nat -> (forall i, (s <= i < s + m)%nat -> D i = true) ->
    exists v, st k s m D = OProc v /\ Rounds j (map f (seq s m)) v.
  Proof.
    induction k; intros s m D L A; cbn [st].
    - assert (m = 1%nat) as -> by (cbn in L; lia). rewrite A by lia. eexists. split; [auto|constructor].
    - destruct (Nat.leb_spec m (2 ^ k)) as [M|M]; [apply IHk; auto; lia|]. pose proof (Nat.pow_nonzero 2 k).
      destruct (IHk s (2 ^ k)%nat D) as (v & -> & R); [lia|intros; apply A; lia|].
      cbn [Nat.pow] in L. destruct (IHk (s + 2 ^ k)%nat (m - 2 ^ k)%nat D) as (v' & -> & R'); [lia|intros; apply A; lia|].
      exists (j v v'). split; [auto|]. replace m with (2 ^ k + (m - 2 ^ k))%nat at 1 by lia. rewrite seq_app, map_app. 
      apply (Rd_app j k); auto; rewrite map_length, seq_length; lia.
  Qed.
  Lemma st_undone k : forall s m D, (1 <= m <= 2 ^ k)%nat -> (exists i, (s <= i < s + m)%nat /\ D i = false) ->
    match st k s m D with OProc _ => False | OLf => m = 1%nat | OBr _ _ => (2 <= m)%nat end.
  Proof.
    induction k; intros s m D L (i & Li & Ei); cbn [st].
    - cbn in L. assert (m = 1%nat) as -> by lia. assert (i = s) as -> by lia. rewrite Ei. auto.
    - destruct (Nat.leb_spec m (2 ^ k)) as [M|M]; [apply IHk; [lia|eauto]|]. pose proof (Nat.pow_nonzero 2 k). cbn [Nat.pow] in L.
      destruct (Nat.lt_ge_cases i (s + 2 ^ k)) as [B|B].
      + specialize (IHk s (2 ^ k)%nat D ltac:(lia)). destruct (st k s (2 ^ k) D); cbn; try lia. exfalso. apply IHk. exists i. split; [lia|auto].
      + specialize (IHk (s + 2 ^ k)%nat (m - 2 ^ k)%nat D ltac:(lia)). unfold node2.
        destruct (st k s (2 ^ k) D); cbn; try lia. destruct (st k (s + 2 ^ k) (m - 2 ^ k) D); cbn; try lia. apply IHk. exists i. split; [lia|auto].
  Qed.
  Lemma st_larger k : forall s m D, (1 <= m <= 2 ^ k)%nat -> st (S k) s m D = st k s m D.
  Proof. intros s m D L. cbn [st]. destruct (Nat.leb_spec m (2 ^ k)); [auto|lia]. Qed.

  Definition upd (D : nat -> bool) (i : nat) : nat -> bool := fun k => (k =? i)%nat || D k.
  (** one insertion: the path has exactly the bits the subtree needs *)
  Lemma insert_ok : forall b s m off D, fits m b = true -> (1 <= m <= 2 ^ b)%nat -> (off < m)%nat -> D (s + off)%nat = false ->
    insert join (st b s m D) (pth b off) (Some (f (s + off)%nat)) = IOk (st b s m (upd D (s + off))).
  Proof.
    induction b; intros s m off D F L Lo Du.
    { cbn in L. assert (m = 1%nat) as -> by lia. assert (off = 0%nat) as -> by lia. rewrite !st_one. rewrite !Nat.add_0_r in *. rewrite Du.
      cbn. unfold upd. rewrite Nat.eqb_refl. auto. }
    destruct (decide (m = 1%nat)) as [->|Nm].
    { assert (off = 0%nat) as -> by lia. rewrite !st_one. rewrite !Nat.add_0_r in *. rewrite Du. cbn. unfold upd. rewrite Nat.eqb_refl. auto. }
    cbn [fits] in F. apply orb_true_iff in F as [F|F]; [apply Nat.eqb_eq in F; lia|].
    rewrite !andb_true_iff, Nat.ltb_lt, Nat.leb_le in F. destruct F as ((F1 & F2) & F3).
    cbn [st]. destruct (Nat.leb_spec m (2 ^ b)); [lia|]. 
    pose proof (Nat.pow_nonzero 2 b). cbn [Nat.pow] in L.
    (* the node before is a branch *)
    set (A := st b s (2 ^ b) D). set (B := st b (s + 2 ^ b) (m - 2 ^ b) D).
    assert (ND : node2 A B = OBr A B).
    { destruct (Nat.lt_ge_cases off (2 ^ b)) as [O|O].
      - pose proof (st_undone b s (2 ^ b)%nat D ltac:(lia)) as U. fold A in U. destruct A; auto. exfalso. apply U. exists (s + off)%nat. split; [lia|auto].
      - pose proof (st_undone b (s + 2 ^ b)%nat (m - 2 ^ b)%nat D ltac:(lia)) as U. fold B in U. destruct A; auto. destruct B; auto. exfalso. apply U. exists (s + off)%nat. split; [lia|auto]. }
    rewrite ND. cbn [pth insert path_step]. rewrite testbit_off.
    destruct (Nat.lt_ge_cases off (2 ^ b)) as [O|O].
    - rewrite Nat.div_small by auto. change (negb (0 mod 2 =? 0)%nat) with false. cbv iota.
      assert (EP : match b with O => None | S h' => Some (h', Z.land (Z.of_nat off) (Z.shiftl 1 (Z.of_nat b) - 1)) end = pth b off).
      { destruct b as [|b]; [auto|]. cbn [pth]. rewrite land_off, Nat.mod_small by auto. auto. }
      rewrite EP. unfold A. rewrite IHb; auto; [|apply fits_full|lia]. fold A.
      rewrite (st_ext b (s + 2 ^ b) (m - 2 ^ b) (upd D (s + off)) D); [|intros i Li; unfold upd; destruct (Nat.eqb_spec i (s + off)); [lia|auto]|lia].
      fold B. unfold node2. destruct (st b s (2 ^ b) (upd D (s + off))); auto. destruct B; auto.
    - assert (Eo : (off / 2 ^ b = 1)%nat).
      { symmetry. apply (Nat.div_unique off (2 ^ b) 1 (off - 2 ^ b)%nat); lia. }
      rewrite Eo. change (negb (1 mod 2 =? 0)%nat) with true. cbv iota.
      assert (EP : match b with O => None | S h' => Some (h', Z.land (Z.of_nat off) (Z.shiftl 1 (Z.of_nat b) - 1)) end = pth b (off - 2 ^ b)).
      { destruct b as [|b]; [auto|]. cbn [pth]. rewrite land_off. do 3 f_equal. symmetry. apply (Nat.mod_unique off _ 1); lia. }
      rewrite EP. unfold B. replace (s + off)%nat with (s + 2 ^ b + (off - 2 ^ b))%nat in * by lia.
      rewrite IHb; auto; [|lia|lia]. 
      set (i := (s + 2 ^ b + (off - 2 ^ b))%nat). 
      rewrite (st_ext b s (2 ^ b) (upd D i) D); [|intros k Lk; unfold upd; destruct (Nat.eqb_spec k i); [unfold i in *; lia|auto]|lia].
      fold A. unfold node2. destruct A; auto. destruct (st b (s + 2 ^ b) (m - 2 ^ b) (upd D i)); auto.
  Qed.
  (** the tree built when the first program arrives *)
  Lemma first_ok : forall k s m i, (1 <= m <= 2 ^ k)%nat ->
    Rounds OBr (map (fun q => if (q =? i)%nat then OProc (f i) else OLf) (seq s m)) (st k s m (fun q => (q =? i)%nat)).
  Proof.
    induction k; intros s m i L.
    - cbn in L. assert (m = 1%nat) as -> by lia. cbn. destruct (Nat.eqb_spec s i) as [->|]; constructor.
    - cbn [st]. destruct (Nat.leb_spec m (2 ^ k)) as [M|M]; [apply IHk; lia|]. pose proof (Nat.pow_nonzero 2 k). cbn [Nat.pow] in L.
      replace m with (2 ^ k + (m - 2 ^ k))%nat at 1 by lia. rewrite seq_app, map_app.
      assert (E : node2 (st k s (2 ^ k) (fun q => (q =? i)%nat)) (st k (s + 2 ^ k) (m - 2 ^ k) (fun q => (q =? i)%nat)) =
                  OBr (st k s (2 ^ k) (fun q => (q =? i)%nat)) (st k (s + 2 ^ k) (m - 2 ^ k) (fun q => (q =? i)%nat))).
      { destruct (Nat.lt_ge_cases i (s + 2 ^ k)) as [B|B].
        - pose proof (st_undone k (s + 2 ^ k) (m - 2 ^ k) (fun q => (q =? i)%nat) ltac:(lia)) as U.
          unfold node2. destruct (st k s (2 ^ k) _); auto. destruct (st k (s + 2 ^ k) (m - 2 ^ k) _); auto. exfalso. apply U. exists (s + 2 ^ k)%nat. split; [lia|]. apply Nat.eqb_neq. lia.
        - pose proof (st_undone k s (2 ^ k) (fun q => (q =? i)%nat) ltac:(lia)) as U.
          destruct (st k s (2 ^ k) _); auto. exfalso. apply U. exists s. split; [lia|]. apply Nat.eqb_neq. lia. }
      rewrite E. apply (Rd_app OBr k); [rewrite map_length, seq_length; auto|rewrite map_length, seq_length; lia|apply IHk; lia|apply IHk; lia].
  Qed.
  Definition doneset (l : list nat) : nat -> bool := fun q => bool_decide (q ∈ l).
  Lemma ingest_first n i : (i < n)%nat -> ingest join n None i (Some (f i)) = IOk (st (digits n) 0 n (doneset [i])).
  Proof.
    intros L. unfold ingest. replace (i <? n)%nat with true by (symmetry; apply Nat.ltb_lt; auto).
    pose proof (digits_bound n). pose proof (first_ok (digits n) 0 n i ltac:(lia)) as R.
    destruct (reduce_tree_rounds OBr (map (fun q => if (q =? i)%nat then OProc (f i) else OLf) (seq 0 n))) as (t & E & R').
    { destruct n; [lia|done]. }
    rewrite E. f_equal. rewrite (Rd_fun _ _ _ R' _ R). apply st_ext; [|lia]. intros q Lq. unfold doneset.
    destruct (Nat.eqb_spec q i) as [->|N]; symmetry; [apply bool_decide_eq_true_2|apply bool_decide_eq_false_2]; set_solver.
  Qed.
  Lemma ingest_next n i done : good_cast n = true -> (i < n)%nat -> i ∉ done ->
    ingest join n (Some (st (digits n) 0 n (doneset done))) i (Some (f i)) = IOk (st (digits n) 0 n (doneset (i :: done))).
  Proof.
    intros G L N. unfold ingest. replace (i <? n)%nat with true by (symmetry; apply Nat.ltb_lt; auto).
    pose proof (digits_bound n). rewrite path_pth.
    pose proof (insert_ok (digits n) 0 n i (doneset done)) as IO. cbn [Nat.add] in IO. rewrite IO; auto; [|lia|apply bool_decide_eq_false_2; auto].
    f_equal. apply st_ext; [|lia]. intros q Lq. unfold upd, doneset. cbn [Nat.add].
    destruct (Nat.eqb_spec q i) as [->|Nq]; cbn.
    - symmetry. apply bool_decide_eq_true_2. set_solver.
    - apply bool_decide_ext. set_solver.
  Qed.
  Lemma ingest_rest n : good_cast n = true -> forall l done, base.NoDup l -> (forall i, i ∈ l -> (i < n)%nat /\ i ∉ done) ->
    ingest_all join n (Some (st (digits n) 0 n (doneset done))) (map (fun i => (i, f i)) l) =
    Some (Some (st (digits n) 0 n (doneset (rev l ++ done)))).
  Proof.
    intros G. induction l as [|i l IH]; intros done ND A; [auto|]. cbn [map ingest_all].
    inversion ND as [|? ? N1 N2]; subst. destruct (A i ltac:(set_solver)) as (Li & Ni).
    rewrite ingest_next by auto. rewrite IH; auto.
    - cbn [rev]. rewrite <- app_assoc. auto.
    - intros q Iq. destruct (A q ltac:(set_solver)) as (Lq & Nq). split; [auto|]. intros Iq'. apply elem_of_cons in Iq' as [->|Iq']; auto.
  Qed.
  (** every order: all ingestions succeed; the tree is processed exactly when all programs have been ingested *)
  Theorem good_order n i l : good_cast n = true -> base.NoDup (i :: l) -> (forall q, q ∈ i :: l -> (q < n)%nat) ->
    exists t, ingest_all join n None (map (fun q => (q, f q)) (i :: l)) = Some (Some t) /\
      (if (length (i :: l) =? n)%nat then exists v, t = OProc v /\ Rounds j (map f (seq 0 n)) v else forall v, t <> OProc v).
  Proof.
    intros G ND A. cbn [map ingest_all]. rewrite ingest_first by (apply A; set_solver).
    inversion ND as [|? ? N1 N2]; subst.
    rewrite (ingest_rest n G l [i]); [|auto|intros q Iq; split; [apply A; set_solver|intros Iq'; apply elem_of_list_singleton in Iq' as ->; auto]].
    eexists. split; [reflexivity|]. pose proof (digits_bound n). assert (Ln : (1 <= n)%nat) by (specialize (A i); destruct n; [exfalso; specialize (A ltac:(set_solver)); lia|lia]).
    assert (Sub : i :: l ⊆ seq 0 n). { intros q Iq. apply elem_of_seq. specialize (A q Iq). lia. }
    destruct (Nat.eqb_spec (length (i :: l)) n) as [E|E].
    - apply st_done; [lia|]. intros q Lq. apply bool_decide_eq_true_2.
      assert (P : i :: l ≡ₚ seq 0 n). { apply submseteq_Permutation_length_eq; [rewrite seq_length; lia|apply NoDup_submseteq; auto]. }
      assert (Iq : q ∈ i :: l) by (rewrite P; apply elem_of_seq; lia). 
      apply elem_of_app. apply elem_of_cons in Iq as [->|Iq]; [right; set_solver|left]. apply elem_of_list_In, in_rev. rewrite rev_involutive. apply elem_of_list_In. auto.
    - intros v Ev. pose proof (st_undone (digits n) 0 n (doneset (rev l ++ [i])) ltac:(lia)) as U. rewrite Ev in U. apply U. clear U Ev.
      assert (XX : ~ (forall q, (q < n)%nat -> q ∈ i :: l)).
      { intros C. apply E. assert (P : seq 0 n ⊆+ i :: l) by (apply NoDup_submseteq; [apply NoDup_seq|intros q Iq; apply elem_of_seq in Iq; apply C; lia]).
        apply submseteq_length in P. assert (P2 : i :: l ⊆+ seq 0 n) by (apply NoDup_submseteq; auto). apply submseteq_length in P2. rewrite seq_length in *. lia. }
      destruct (decide (Exists (fun q => q ∉ i :: l) (seq 0 n))) as [EX|NE]; [apply List.Exists_exists in EX as (q & Q1 & Q2); apply elem_of_list_In in Q1|].
      + exists q. apply elem_of_seq in Q1. split; [lia|]. apply bool_decide_eq_false_2. intros C. apply Q2. apply elem_of_app in C as [C|C]; [|set_solver].
        apply elem_of_list_In, in_rev, elem_of_list_In in C. set_solver.
      + exfalso. apply XX. intros q Lq. destruct (decide (q ∈ i :: l)); [auto|]. exfalso. apply NE. apply List.Exists_exists. exists q. split; [apply elem_of_list_In, elem_of_seq; lia|auto].
  Qed.
End Good.

(** ** Powers of two never complete *)
Section Bad.
  Context {X : Type} (join : X -> X -> option X).
  Lemma ingest_left_only k : (2 <= k)%nat -> forall l t R, (exists A, t = OBr A R) -> (exists a b, R = OBr a b) ->
    forall t', ingest_all join (2 ^ k) (Some t) l = Some (Some t') -> exists A', t' = OBr A' R.
  Proof.
    intros Lk. induction l as [|[i x] l IH]; intros t R (A & ->) (a & b & ER) t' E; cbn [ingest_all] in E.
    { injection E as <-. eauto. }
    unfold ingest in E. destruct (Nat.ltb_spec i (2 ^ k)) as [Li|Li]; [|done].
    rewrite path_pth in E. 
    assert (Ed : digits (2 ^ k) = S k). { unfold digits. pose proof (Nat.pow_nonzero 2 k). destruct (2 ^ k)%nat eqn:E2; [lia|]. rewrite <- E2, Nat.log2_pow2 by lia. auto. }
    rewrite Ed in E. cbn [pth insert path_step] in E. rewrite testbit_off in E. rewrite Nat.div_small in E by auto.
    change (negb (0 mod 2 =? 0)%nat) with false in E. cbv iota in E. cbn match in E.
    destruct (insert join A _ (Some x)) as [c| |] eqn:Ec; try done.
    subst R. destruct c; (eapply IH; [..|exact E]; eauto).
  Qed.
  Theorem power_of_two_stuck k l t : (2 <= k)%nat -> ingest_all join (2 ^ k) None l = Some (Some t) -> forall v, t <> OProc v.
  Proof.
    intros Lk E v ->. destruct l as [|[i x] l]; [done|]. cbn [ingest_all] in E. unfold ingest in E.
    destruct (Nat.ltb_spec i (2 ^ k)) as [Li|Li]; [|done].
    destruct k as [|k]; [lia|]. pose proof (Nat.pow_nonzero 2 k).
    set (g := fun q => if (q =? i)%nat then OProc x else OLf) in *.
    assert (RR : exists A a b, Rounds OBr (map g (seq 0 (2 ^ S k))) (OBr A (OBr a b))).
    { destruct k as [|k]; [lia|]. pose proof (Nat.pow_nonzero 2 k).
      assert (SQ : forall s m, (1 <= m)%nat -> exists a, Rounds OBr (map g (seq s m)) a).
      { intros s m Lm. apply (Rd_exists _ m); [rewrite map_length, seq_length; auto|]. destruct m; [lia|done]. }
      destruct (SQ 0%nat (2 ^ S k)%nat) as (A & RA); [cbn [Nat.pow]; lia|].
      destruct (SQ (2 ^ S k)%nat (2 ^ k)%nat) as (a & Ra); [lia|].
      destruct (SQ (2 ^ S k + 2 ^ k)%nat (2 ^ k)%nat) as (b & Rb); [lia|].
      exists A, a, b. replace (2 ^ S (S k))%nat with (2 ^ S k + (2 ^ k + 2 ^ k))%nat by (cbn [Nat.pow]; lia).
      rewrite seq_app, map_app. cbn [Nat.add]. apply (Rd_app OBr (S k)); [rewrite map_length, seq_length; auto|rewrite map_length, seq_length; cbn [Nat.pow]; lia|auto|].
      rewrite seq_app, map_app. apply (Rd_app OBr k); auto; rewrite map_length, seq_length; auto. }
    destruct RR as (A & a & b & RR).
    destruct (reduce_tree_rounds OBr (map g (seq 0 (2 ^ S k)))) as (t & Et & Rt). { intros C. apply (f_equal length) in C. rewrite map_length, seq_length in C. cbn [length Nat.pow] in C. lia. }
    rewrite (Rd_fun _ _ _ Rt _ RR) in Et. rewrite Et in E.
    apply (ingest_left_only (S k) Lk l _ (OBr a b)) in E as (A' & C); [done|eauto|eauto].
  Qed.
End Bad.

(** ** Every other number of programs: when program 0 comes first, some program can never be ingested *)
Section Stuck.
  Context {X : Type} (j : X -> X -> X).
  Notation join := (fun a b => Some (j a b)).
  Inductive blocked : nat -> nat -> onode X -> Prop :=
  | BkTop b m l r : (m <= 2 ^ b)%nat -> (forall v, r <> OProc v) -> blocked (S b) m (OBr l r)
  | BkRight b m l r : (2 ^ b < m <= 2 ^ S b)%nat -> blocked b (m - 2 ^ b) r -> blocked (S b) m (OBr l r).
  Lemma blocked_not b m t : blocked b m t -> forall v, t <> OProc v.
  Proof. intros B v ->. inversion B. Qed.
  Lemma blocked_insert (jn : X -> X -> option X) b m t : blocked b m t -> forall i x t', (i < m)%nat -> insert jn t (pth b i) x = IOk t' -> blocked b m t'.
  Proof.
    induction 1 as [b m l r L N|b m l r L B IH]; intros i x t' Li E; cbn [pth insert path_step] in E; rewrite testbit_off in E.
    - rewrite Nat.div_small in E by lia. change (negb (0 mod 2 =? 0)%nat) with false in E. cbv iota in E. cbn match in E.
      destruct (insert jn l _ x) as [c| |]; try done. 
      assert (E' : t' = OBr c r) by (destruct c, r; try congruence; edestruct N; reflexivity). subst. apply BkTop; auto.
    - destruct (Nat.lt_ge_cases i (2 ^ b)) as [Lb|Lb].
      + rewrite Nat.div_small in E by lia. change (negb (0 mod 2 =? 0)%nat) with false in E. cbv iota in E. cbn match in E.
        destruct (insert jn l _ x) as [c| |]; try done. pose proof (blocked_not _ _ _ B) as N.
        assert (E' : t' = OBr c r) by (destruct c, r; try congruence; edestruct N; reflexivity). subst. apply BkRight; auto.
      + assert (D1 : (i / 2 ^ b = 1)%nat). { cbn [Nat.pow] in L. symmetry. apply (Nat.div_unique i (2 ^ b) 1 (i - 2 ^ b)); lia. }
        rewrite D1 in E. change (negb (1 mod 2 =? 0)%nat) with true in E. cbv iota in E.
        assert (M : (i mod 2 ^ b = i - 2 ^ b)%nat). { cbn [Nat.pow] in L. symmetry. apply (Nat.mod_unique i (2 ^ b) 1 (i - 2 ^ b)); lia. }
        assert (EP : (match b with O => None | S h' => Some (h', Z.land (Z.of_nat i) (Z.shiftl 1 (Z.of_nat b) - 1)) end) = pth b (i - 2 ^ b)).
        { rewrite land_off, M. destruct b; auto. }
        rewrite EP in E. destruct (insert jn r _ x) as [c| |] eqn:Ec; try done. apply IH in Ec; [|lia]. pose proof (blocked_not _ _ _ Ec) as N.
        assert (E' : t' = OBr l c) by (destruct l, c; try congruence; edestruct N; reflexivity). subst. apply BkRight; auto.
  Qed.
  Lemma blocked_all (jn : X -> X -> option X) n l : forall t, blocked (digits n) n t -> forall t', ingest_all jn n (Some t) l = Some (Some t') -> blocked (digits n) n t'.
  Proof.
    induction l as [|[i x] l IH]; intros t B t' E; cbn [ingest_all] in E; [injection E as <-; auto|].
    unfold ingest in E. destruct (Nat.ltb_spec i n) as [Li|Li]; [|done]. rewrite path_pth in E.
    destruct (insert jn t (pth (digits n) i) (Some x)) as [c| |] eqn:Ec; try done. eapply IH; [|exact E]. eapply blocked_insert; eauto.
  Qed.
  Lemma st_br (f : nat -> X) k : forall s m D, (2 <= m <= 2 ^ k)%nat -> (forall i, (s < i < s + m)%nat -> D i = false) ->
    exists l r, st j f k s m D = OBr l r /\ forall v, r <> OProc v.
  Proof.
    induction k; intros s m D L A; cbn [st]. { cbn in L. lia. }
    destruct (Nat.leb_spec m (2 ^ k)) as [M|M]; [apply IHk; auto; lia|]. pose proof (Nat.pow_nonzero 2 k). cbn [Nat.pow] in L.
    pose proof (st_undone j f k (s + 2 ^ k) (m - 2 ^ k) D ltac:(lia)) as U. 
    assert (U' : match st j f k (s + 2 ^ k) (m - 2 ^ k) D with OProc _ => False | OLf => (m - 2 ^ k)%nat = 1%nat | OBr _ _ => (2 <= m - 2 ^ k)%nat end).
    { apply U. exists (s + 2 ^ k)%nat. split; [lia|]. apply A. lia. }
    assert (NV : forall v, st j f k (s + 2 ^ k) (m - 2 ^ k) D <> OProc v) by (intros v Ev; rewrite Ev in U'; done).
    destruct (st j f k s (2 ^ k) D) eqn:E1, (st j f k (s + 2 ^ k) (m - 2 ^ k) D) eqn:E2; cbn; try (eexists _, _; split; [reflexivity|intros v; congruence]). 
    edestruct NV; reflexivity.
  Qed.
  Lemma st_blocked (f : nat -> X) b : forall s m D, fits m b = false -> (1 <= m <= 2 ^ b)%nat -> (forall i, (s < i < s + m)%nat -> D i = false) ->
    blocked b m (st j f b s m D).
  Proof.
    induction b; intros s m D F L A. { cbn in L. assert (m = 1%nat) as -> by lia. done. }
    cbn [fits] in F. apply orb_false_iff in F as (F1 & F2). apply Nat.eqb_neq in F1.
    destruct (Nat.le_gt_cases m (2 ^ b)) as [M|M].
    - destruct (st_br f (S b) s m D) as (l & r & -> & N); [lia|auto|]. apply BkTop; auto.
    - assert (F3 : fits (m - 2 ^ b) b = false). { rewrite (proj2 (Nat.ltb_lt _ _) M), (proj2 (Nat.leb_le m (2 ^ S b))) in F2 by lia. auto. }
      pose proof (Nat.pow_nonzero 2 b). cbn [Nat.pow] in L.
      assert (B : blocked b (m - 2 ^ b) (st j f b (s + 2 ^ b) (m - 2 ^ b) D)) by (apply IHb; [auto|lia|intros i Li; apply A; lia]).
      cbn [st]. rewrite (proj2 (Nat.leb_gt m (2 ^ b))) by lia. pose proof (blocked_not _ _ _ B) as N.
      destruct (st j f b s (2 ^ b) D) eqn:E1, (st j f b (s + 2 ^ b) (m - 2 ^ b) D) eqn:E2; cbn; try (edestruct N; reflexivity); apply BkRight; cbn [Nat.pow]; auto; lia.
  Qed.
  Theorem bad_stuck n x l t : good_cast n = false -> (1 <= n)%nat -> 
    ingest_all join n None ((0%nat, x) :: l) = Some (Some t) -> forall v, t <> OProc v.
  Proof.
    intros G Ln E. cbn [ingest_all] in E. pose proof (ingest_first j (fun _ => x) n 0 ltac:(lia)) as I. cbv beta in I. rewrite I in E.
    apply (blocked_not (digits n) n). eapply blocked_all; [|exact E]. pose proof (digits_bound n).
    apply st_blocked; [auto|lia|]. intros i Li. apply bool_decide_eq_false_2. intros C. apply elem_of_list_singleton in C. lia.
  Qed.
End Stuck.
