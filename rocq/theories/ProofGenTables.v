(** Range-check and program tables built from what is looked up in them. *)
From Coq Require Import Sorting.Permutation.
From Verif Require Import ProofGenSpec RegGenLook RegGenRun MemGenProofs StateSpec DeviceProofs TableProofs StateProofs WordProofs WordProps CircuitProps.
Open Scope Z_scope.

Definition single (e : Z * Z) : list Z * Z := ([fst e], snd e).
Lemma mult_feq v {A} (g h : A -> list Z * Z) l : (forall x, In x l -> tuple_key (fst (g x)) = tuple_key (fst (h x)) /\ feq (snd (g x)) (snd (h x))) ->
  feq (mult_of v (map g l)) (mult_of v (map h l)).
Proof.
  induction l as [|x l IH]; intros H; [reflexivity|]. cbn [map]. destruct (g x) as [t w] eqn:G. destruct (h x) as [t' w'] eqn:H'. rewrite !mult_of_cons. destruct (H x (or_introl eq_refl)) as [K E]. rewrite G, H' in K, E. cbn [fst snd] in K, E. rewrite K.
  unfold feq in *. assert (IH0 := IH ltac:(intros y I; apply H; right; exact I)); clear IH; rename IH0 into IH. rewrite Z.add_mod, IH by discriminate. rewrite (Z.add_mod (if decide (tuple_key _ = tuple_key v) then w' else 0)) by discriminate. destruct (decide _); [rewrite E|]; reflexivity.
Qed.
Lemma feq_zero a b : feq a b -> fzero (a - b).
Proof. unfold feq, fzero. intros E. rewrite Zminus_mod, E, Z.sub_diag. reflexivity. Qed.
(** ** Grouping *)
Definition grouped (ks : list Z) (l : list (Z * Z)) : list (Z * Z) := map (fun k => (k, sumZ (map snd (List.filter (fun e => fst e =? k) l)))) ks.
Lemma key1 a b : canon a -> canon b -> tuple_key [a] = tuple_key [b] -> a = b.
Proof. unfold canon, tuple_key. cbn [map]. intros A B E. injection E as E. rewrite !Z.mod_small in E by lia. exact E. Qed.
Lemma grouped_absent v e l ks : ~ In (fst e) ks -> mult_of v (map single (grouped ks (e :: l))) = mult_of v (map single (grouped ks l)).
Proof.
  intros N. f_equal. unfold grouped. rewrite !map_map. apply map_ext_in. intros k I. cbn [List.filter]. destruct (Z.eqb_spec (fst e) k) as [E|]; [subst k; contradiction|reflexivity].
Qed.
Lemma grouped_cons v e l ks : List.NoDup ks -> In (fst e) ks -> mult_of v (map single (grouped ks (e :: l))) = mult_of v [single e] + mult_of v (map single (grouped ks l)).
Proof.
  induction ks as [|k ks IH]; intros N I; [destruct I|]. inversion N as [|? ? N1 N2]; subst. change (grouped (k :: ks) ?x) with ((k, sumZ (map snd (List.filter (fun e => fst e =? k) x))) :: grouped ks x). cbn [map]. unfold single at 1 4. cbn [fst snd]. rewrite !mult_of_cons.
  destruct (Z.eq_dec (fst e) k) as [E|E].
  - subst k. rewrite grouped_absent by exact N1. cbn [List.filter]. rewrite Z.eqb_refl. cbn [map]. rewrite sumZ_cons. unfold single at 2. rewrite mult_of_cons. change (mult_of v []) with 0. destruct (decide _); lia.
  - destruct I as [I|I]; [congruence|]. rewrite (IH N2 I). cbn [List.filter]. destruct (Z.eqb_spec (fst e) k); [contradiction|]. lia.
Qed.
Lemma grouped_mult v l ks : List.NoDup ks -> (forall e, In e l -> In (fst e) ks) -> mult_of v (map single (grouped ks l)) = mult_of v (map single l).
Proof.
  intros N. induction l as [|e l IH]; intros H.
  - apply mult_of_zero. intros x I. apply in_map_iff in I as (y & <- & I). apply in_map_iff in I as (k & <- & _). reflexivity.
  - rewrite grouped_cons by (auto; apply H; left; reflexivity). rewrite IH by (intros x I; apply H; right; exact I). change (map single (e :: l)) with ([single e] ++ map single l). rewrite mult_of_app. reflexivity.
Qed.
Definition group_keys (l : list (Z * Z)) : list Z := sort_by Z.leb (elements (list_to_set (map fst l) : gset Z)).
Lemma group_keys_in l k : In k (group_keys l) <-> exists m, In (k, m) l.
Proof.
  unfold group_keys. rewrite sort_in, <- elem_of_list_In, elem_of_elements, elem_of_list_to_set, elem_of_list_In, in_map_iff. split; [intros ([k' m] & <- & I); eauto|intros (m & I); exists (k, m); auto].
Qed.
Lemma group_keys_nodup l : List.NoDup (group_keys l).
Proof. unfold group_keys. eapply Permutation_NoDup; [symmetry; apply sort_perm|]. apply NoDup_ListNoDup, NoDup_elements. Qed.
Lemma group_mult v l : feq (mult_of v (map single (group_map l))) (mult_of v (map single l)).
Proof.
  rewrite <- (grouped_mult v l (group_keys l)); [|apply group_keys_nodup|intros [k m] I; apply group_keys_in; cbn; eauto].
  unfold group_map, grouped. fold (group_keys l). rewrite !map_map. apply mult_feq. intros k _. cbn [single fst snd]. split; [reflexivity|]. unfold feq. rewrite Z.mod_mod by discriminate. reflexivity.
Qed.
Lemma group_in l k m : In (k, m) (group_map l) -> canon m /\ exists m', In (k, m') l.
Proof.
  unfold group_map. fold (group_keys l). intros I. apply in_map_iff in I as (k' & [= <- <-] & I). split; [unfold canon; apply Z.mod_pos_bound; reflexivity|]. apply group_keys_in, I.
Qed.
(** ** Extraction *)
Definition extracted (looking : entries) : list (Z * Z) := flat_map (fun e => if snd e mod P =? 0 then [] else [(nth 0 (fst e) 0 mod P, snd e mod P)]) looking.
Definition singles (looking : entries) : Prop := forall e, In e looking -> exists v, fst e = [v].
Lemma extract_all looking : singles looking -> collect_res extract_with_mul looking = Ok (extracted looking).
Proof.
  intros S. unfold extracted. apply (collect_res_map _ (fun e => if snd e mod P =? 0 then [] else [(nth 0 (fst e) 0 mod P, snd e mod P)])). intros [t f] I. destruct (S _ I) as [v E]. cbn [fst] in E. subst t. reflexivity.
Qed.
Lemma extracted_mult v looking : singles looking -> feq (mult_of v (map single (extracted looking))) (mult_of v looking).
Proof.
  induction looking as [|[t f] l IH]; intros S; [reflexivity|]. unfold extracted in *. cbn [flat_map fst snd]. rewrite map_app, mult_of_app. destruct (S _ (or_introl eq_refl)) as [x E]. cbn [fst] in E. subst t. rewrite (mult_of_cons v [x]).
  assert (IH0 := IH ltac:(intros e I; apply S; right; exact I)); clear IH; rename IH0 into IH. unfold feq in *. rewrite Z.add_mod, IH by discriminate. rewrite (Z.add_mod (if decide (tuple_key _ = tuple_key v) then f else 0)) by discriminate. f_equal. f_equal.
  destruct (Z.eqb_spec (f mod P) 0) as [Z0|Z0].
  - destruct (decide _); [rewrite Z0|]; reflexivity.
  - unfold single. cbn [map fst snd nth]. rewrite mult_of_cons. change (mult_of v []) with 0. rewrite Z.add_0_r. replace (tuple_key [x mod P]) with (tuple_key [x]) by (unfold tuple_key; cbn [map]; rewrite Z.mod_mod by discriminate; reflexivity).
    destruct (decide _); [apply Z.mod_mod; discriminate|reflexivity].
Qed.
Lemma extracted_in looking k m : In (k, m) (extracted looking) -> exists t f, In (t, f) looking /\ k = nth 0 t 0 mod P /\ ~ fzero f.
Proof.
  unfold extracted. intros I. apply in_flat_map in I as ([t f] & I & J). cbn [fst snd] in J. destruct (Z.eqb_spec (f mod P) 0) as [Z0|Z0]; [destruct J|]. destruct J as [[= <- <-]|[]]. exists t, f. auto.
Qed.
(** ** The range-check table *)
Lemma rangecheck_generated looking : singles looking -> (forall v f, In ([v], f) looking -> ~ fzero f -> u32 (v mod P)) ->
  exists rc, generate_rangecheck_trace looking = Ok rc /\ ctl_ok looking (rc_looked rc) /\ (forall r, In r rc -> length (rc_limbs r) = 4%nat /\ Forall u8 (rc_limbs r)).
Proof.
  intros S H. unfold generate_rangecheck_trace. rewrite (extract_all _ S). cbn [rbind]. set (l := extracted looking).
  assert (U : forall k m, In (k, m) (group_map l) -> u32 k /\ canon m).
  { intros k m I. apply group_in in I as [C [m' I]]. split; [|exact C]. apply extracted_in in I as (t & f & I & -> & F). destruct (S _ I) as [x E]. cbn [fst] in E. subst t. cbn [nth]. eapply H; eauto. }
  rewrite (collect_res_map _ (fun '(v, m) => [mkRc (limbs_from_u32 v) m])). 2:{ intros [k m] I. destruct (U k m I) as [Uk _]. unfold u32 in Uk. destruct (Z.ltb_spec k (2 ^ 32)); [reflexivity|lia]. }
  cbn [rbind]. eexists. split; [reflexivity|].
  assert (FM : flat_map (fun '(v, m) => [mkRc (limbs_from_u32 v) m]) (group_map l) = map (fun e => mkRc (limbs_from_u32 (fst e)) (snd e)) (group_map l)).
  { generalize (group_map l). intros g. induction g as [|[k m] g IH]; [reflexivity|]. cbn. f_equal. exact IH. }
  rewrite FM. split.
  - intros v. apply feq_zero. unfold rc_looked. rewrite (mult_pad v (fun r => ([rc_value r], rc_mult r))) by reflexivity. rewrite map_map.
    rewrite (mult_same v _ single). { symmetry. etransitivity; [apply group_mult|]. apply extracted_mult, S. }
    intros [k m] I. destruct (U k m I) as [Uk C]. destruct (C34_complete k m Uk C) as (_ & V & _). cbn [fst snd]. rewrite V. reflexivity.
  - intros r I. apply RegGenRun.in_pad in I as [I| ->]; [|split; [reflexivity|repeat constructor; unfold u8; lia]]. apply in_map_iff in I as ([k m] & <- & I). destruct (U k m I) as [Uk C]. destruct (C34_complete k m Uk C) as ((L & _) & _ & B). auto.
Qed.
(** ** The byte table *)
Lemma seq_pairs n : forall a, ForallOrdPairs Z.le (map Z.of_nat (seq a n)).
Proof.
  induction n as [|n IH]; intros a; [constructor|]. cbn [seq map]. constructor; [|apply IH]. apply List.Forall_forall. intros x I. apply in_map_iff in I as (k & <- & I). apply in_seq in I. lia.
Qed.
Lemma pairs_unique : forall l l', ForallOrdPairs Z.le l -> ForallOrdPairs Z.le l' -> Permutation l l' -> l = l'.
Proof.
  induction l as [|x l IH]; intros l' O O' PM; [apply Permutation_nil in PM; auto|]. destruct l' as [|y l']; [symmetry in PM; apply Permutation_nil in PM; discriminate PM|].
  inversion O as [|? ? F1 O1]; subst. inversion O' as [|? ? F2 O2]; subst. rewrite List.Forall_forall in F1, F2.
  assert (E : x = y). { assert (I : In x (y :: l')) by (eapply Permutation_in; [exact PM|left; reflexivity]). assert (J : In y (x :: l)) by (eapply Permutation_in; [symmetry; exact PM|left; reflexivity]). destruct I as [I|I]; [auto|]. destruct J as [J|J]; [auto|]. specialize (F1 y J). specialize (F2 x I). lia. }
  subst y. f_equal. apply IH; auto. eapply Permutation_cons_inv. exact PM.
Qed.
Lemma u8_keys l : (forall k m, In (k, m) l -> u8 k) -> group_keys (l ++ map (fun k => (Z.of_nat k, 0)) (seq 0 256)) = map Z.of_nat (seq 0 256).
Proof.
  intros H. set (l' := l ++ _). apply pairs_unique.
  - unfold group_keys. apply sort_pairs; [intros; lia|intros; lia|]. apply pairs_all. intros x y _ _. split; intros; lia.
  - apply seq_pairs.
  - apply NoDup_Permutation; [apply NoDup_ListNoDup, group_keys_nodup|apply NoDup_ListNoDup; apply FinFun.Injective_map_NoDup; [intros a b; lia|apply seq_NoDup]|].
    intros k. rewrite !elem_of_list_In, group_keys_in. unfold l'. split.
    + intros (m & I). apply in_app_or in I as [I|I]; [|apply in_map_iff in I as (j & [= <- <-] & I); apply in_map; exact I]. apply H in I. unfold u8 in I. apply in_map_iff. exists (Z.to_nat k). split; [lia|]. apply in_seq. lia.
    + intros I. apply in_map_iff in I as (j & <- & I). exists 0. apply in_or_app. right. apply in_map_iff. eauto.
Qed.
Lemma rc_u8_in rc e : In e (rc_u8_looking rc) -> exists r i, In r rc /\ (i < 4)%nat /\ e = ([nth i (rc_limbs r) 0], rc_mult r).
Proof. unfold rc_u8_looking. intros I. apply in_flat_map in I as (i & J & I). apply in_map_iff in I as (r & <- & I). apply in_seq in J. exists r, i. split; [exact I|]. split; [lia|reflexivity]. Qed.
Lemma u8_generated rc mem : (forall r, In r rc -> length (rc_limbs r) = 4%nat /\ Forall u8 (rc_limbs r)) -> (forall v f, In ([v], f) (mem_u8_looking mem) -> ~ fzero f -> u8 v) ->
  exists t, generate_rangecheck_u8_trace rc mem = Ok t /\ trace_sat u8_air t /\ ctl_ok (rc_u8_looking rc ++ mem_u8_looking mem) (u8_looked t).
Proof.
  intros HR HM. unfold generate_rangecheck_u8_trace. set (looking := rc_u8_looking rc ++ mem_u8_looking mem).
  assert (S : singles looking). { intros e I. apply in_app_or in I as [I|I]; [apply rc_u8_in in I as (r & i & _ & _ & ->); cbn; eauto|]. apply in_map_iff in I as (r & <- & _). cbn. eauto. }
  rewrite (extract_all _ S). cbn [rbind]. set (l := extracted looking).
  assert (U : forall k m, In (k, m) l -> u8 k).
  { assert (M : forall x, u8 x -> u8 (x mod P)) by (intros x Ux; rewrite Z.mod_small; [exact Ux|unfold u8, P in *; lia]).
    intros k m I. apply extracted_in in I as (t & f & I & -> & F). apply in_app_or in I as [I|I].
    - apply rc_u8_in in I as (r & i & I & Hi & [= -> ->]). cbn [nth]. destruct (HR r I) as [L B]. rewrite List.Forall_forall in B. apply M, B, nth_In. lia.
    - pose proof I as J. apply in_map_iff in J as (r & [= <- <-] & _). cbn [nth]. apply M. eapply HM; eauto. }
  set (l' := l ++ map (fun k => (Z.of_nat k, 0)) (seq 0 256)). eexists. split; [reflexivity|].
  assert (E : group_map l' = map (fun k => (Z.of_nat k, sumZ (map snd (List.filter (fun e => fst e =? Z.of_nat k) l')) mod P)) (seq 0 256)).
  { unfold group_map. fold (group_keys l'). unfold l' at 2. rewrite (u8_keys l U), map_map. reflexivity. }
  split.
  - rewrite E, map_map. set (f := fun k : nat => _). assert (V : forall k, u8_value (f k) = Z.of_nat k) by reflexivity. clearbody f.
    assert (LK : forall i r, map f (seq 0 256) !! i = Some r -> (i < 256)%nat /\ u8_value r = Z.of_nat i).
    { intros i r Q. pose proof (lookup_lt_Some _ _ _ Q) as L. rewrite map_length, seq_length in L. split; [exact L|]. rewrite list_lookup_fmap, lookup_seq_lt in Q by exact L. injection Q as <-. apply V. }
    constructor; cbn [u8_air a_first a_always a_transition a_last].
    + discriminate.
    + intros r Q. apply LK in Q as [_ ->]. repeat constructor.
    + intros; constructor.
    + intros i r r' Q Q'. apply LK in Q as [_ ->]. apply LK in Q' as [_ ->]. apply List.Forall_cons; [|constructor]. replace (Z.of_nat (Datatypes.S i) - Z.of_nat i - 1) with 0 by lia. reflexivity.
    + intros r Q. rewrite last_lookup, map_length, seq_length in Q. apply LK in Q as [_ ->]. repeat constructor.
  - intros v. apply feq_zero. unfold u8_looked. rewrite map_map. rewrite (mult_same v _ single) by (intros [k m] _; reflexivity). symmetry. etransitivity; [apply group_mult|]. unfold l'. rewrite map_app, mult_of_app.
    rewrite (mult_of_zero v (map single (map _ (seq 0 256)))) by (intros e I; apply in_map_iff in I as (x & <- & I); apply in_map_iff in I as (k & <- & _); reflexivity). rewrite Z.add_0_r. apply extracted_mult, S.
Qed.
(** ** The program tables *)
Lemma rom_rows p r : In r (rom_of p) <-> exists a i, ro_code p !! a = Some (inl i) /\ r = mkRom a (inst_data (inst_cols a i)).
Proof.
  unfold rom_of. rewrite <- elem_of_list_In, elem_of_list_omap. split.
  - intros ([a d] & I & Q). apply elem_of_map_to_list in I. destruct d as [i|]; [|discriminate Q]. injection Q as <-. eauto.
  - intros (a & i & I & ->). exists (a, inl i). split; [apply elem_of_map_to_list; exact I|reflexivity].
Qed.
Lemma rom_generated p a i : ro_code p !! a = Some (inl i) -> exists rom, generate_program_rom_trace p = Ok rom /\ forall r, In r rom <-> In r (rom_of p).
Proof.
  intros I. unfold generate_program_rom_trace. assert (J : In (mkRom a (inst_data (inst_cols a i))) (sort_by (fun x y => ro_pc x <=? ro_pc y) (rom_of p))) by (apply sort_in, rom_rows; eauto).
  destruct (sort_by _ _) as [|d l] eqn:E; [destruct J|]. eexists. split; [reflexivity|]. intros r. rewrite <- (sort_in (fun x y : romrow => ro_pc x <=? ro_pc y) (rom_of p) r). match goal with |- _ <-> In r ?l0 => change l0 with (sort_by (fun x y => ro_pc x <=? ro_pc y) (rom_of p)) end. rewrite E. unfold pad_last. split.
  - intros K. apply RegGenRun.in_pad in K as [K| ->]; [exact K|]. destruct (exists_last (l := d :: l)) as (l' & x & ->); [discriminate|]. rewrite List.last_last. apply in_or_app. right. left. reflexivity.
  - apply RegGenRun.pad_keeps.
Qed.
Lemma take_counts_mult v (D : Z -> Z) : forall rom counts, (forall r, In r rom -> ro_data r = D (ro_pc r)) -> (forall c, In c counts -> exists r, In r rom /\ ro_pc r = c) ->
  mult_of v (mult_cpu_looked (take_counts counts rom)) = mult_of v (map (fun c => ([c; D c], 1)) counts).
Proof.
  induction rom as [|r rom IH]; intros counts HD HC.
  - destruct counts as [|c counts]; [reflexivity|]. destruct (HC c (or_introl eq_refl)) as (x & [] & _).
  - cbn [take_counts mult_cpu_looked map mu_pc mu_data mu_mult]. rewrite mult_of_cons. fold (mult_cpu_looked (take_counts (List.filter (fun c => negb (ro_pc r =? c)) counts) rom)). rewrite IH.
    + rewrite (mult_split v (fun c => ([c; D c], 1)) (Z.eqb (ro_pc r)) counts). f_equal. rewrite (HD r (or_introl eq_refl)).
      assert (G : forall l, (forall c, In c l -> c = ro_pc r) -> mult_of v (map (fun c => ([c; D c], 1)) l) = if decide (tuple_key [ro_pc r; D (ro_pc r)] = tuple_key v) then Z.of_nat (length l) else 0).
      { induction l as [|c l IHl]; intros HL; [destruct (decide _); reflexivity|]. cbn [map]. rewrite mult_of_cons, IHl by (intros x I; apply HL; right; exact I). rewrite (HL c (or_introl eq_refl)). cbn [length]. destruct (decide _); lia. }
      rewrite G; [reflexivity|]. intros c I. apply filter_In in I as [_ E]. lia.
    + intros x I. apply HD. right. exact I.
    + intros c I. apply filter_In in I as [I N]. destruct (HC c I) as (x & [<-|J] & E); [|eauto]. rewrite E, Z.eqb_refl in N. discriminate N.
Qed.
Lemma take_counts_rows : forall rom counts, map (fun r => mkRom (mu_pc r) (mu_data r)) (take_counts counts rom) = rom.
Proof. induction rom as [|[a d] rom IH]; intros counts; [reflexivity|]. cbn [take_counts map mu_pc mu_data ro_pc ro_data]. f_equal. apply IH. Qed.
Lemma rom_ctl counts rom : ctl_ok (mult_rom_looking (take_counts counts rom)) (rom_looked rom).
Proof. intros v. apply feq_zero. unfold rom_looked. rewrite <- (take_counts_rows rom counts) at 2. rewrite map_map. reflexivity. Qed.
