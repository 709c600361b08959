(** The register table built from a consistent set of rows: sorting and constraints. *)
From Verif Require Import RegGenModel MemGenProofs StateSpec DeviceSpec DeviceProofs TableProofs CpuTrace StateProofs StateWitness WordProofs WordProps PoseidonSpec PoseidonGen.
Open Scope Z_scope.

Lemma pairs_filter {A} (R : A -> A -> Prop) f l : ForallOrdPairs R l -> ForallOrdPairs R (List.filter f l).
Proof.
  induction 1 as [|x l F P IH]; [constructor|]. cbn [List.filter]. destruct (f x); [|exact IH]. constructor; [|exact IH].
  rewrite List.Forall_forall in *. intros y I. apply filter_In in I as [I _]. apply F, I.
Qed.
(** ** A consistent history of the registers *)
Definition init_row (val : Z -> Z -> Z) (a : Z) : regrow := mkReg a (val 2 a) 0 1 0 0.
Definition read_row (val : Z -> Z -> Z) (a c : Z) : regrow := mkReg a (val c a) c 0 1 0.
Definition write_row (val : Z -> Z -> Z) (a c : Z) : regrow := mkReg a (val (c + 1) a) c 0 0 1.
(** [val c a]: register [a] before the step of clock [c] *)
Record rhistory (ops : list regrow) (val : Z -> Z -> Z) (T : Z) : Prop := {
  rh_row : forall r, In r ops -> g_addr r <> 0 -> 1 <= g_addr r <= 31 /\
    (r = init_row val (g_addr r) \/ 2 <= g_clk r < T /\ (r = read_row val (g_addr r) (g_clk r) \/ r = write_row val (g_addr r) (g_clk r)));
  rh_init : forall a, 1 <= a <= 31 -> In (init_row val a) ops;
  rh_change : forall c a, 1 <= a <= 31 -> 2 <= c < T -> val (c + 1) a <> val c a -> In (write_row val a c) ops;
  rh_val : forall c a, 1 <= a <= 31 -> u32 (val c a);
  rh_T : 2 * T <= 2 ^ 32 }.
Section Table.
Context ops val T (HY : rhistory ops val T).
Definition general : list regrow := List.filter (fun r => negb (g_addr r =? 0)) (sort_by reg_key_le ops).
Lemma in_general r : In r general <-> In r ops /\ g_addr r <> 0.
Proof. unfold general. rewrite filter_In, sort_in, negb_true_iff, Z.eqb_neq. reflexivity. Qed.
Lemma general_row r : In r general -> 1 <= g_addr r <= 31 /\
    (r = init_row val (g_addr r) \/ 2 <= g_clk r < T /\ (r = read_row val (g_addr r) (g_clk r) \/ r = write_row val (g_addr r) (g_clk r))).
Proof. intros I. apply in_general in I as [I N]. exact (rh_row _ _ _ HY r I N). Qed.
Lemma aug_small r : In r general -> g_aug r mod P = g_aug r /\ 0 <= g_aug r < 2 ^ 32.
Proof.
  intros I. pose proof (rh_T _ _ _ HY) as HT. assert (B : 0 <= g_aug r < 2 ^ 32).
  { destruct (general_row r I) as [_ [E|[C [E|E]]]]; rewrite E in *; unfold g_aug; cbn in *; lia. }
  split; [|exact B]. apply Z.mod_small. unfold P. lia.
Qed.
Lemma rkey_le x y : reg_key_le x y = true <-> g_addr x < g_addr y \/ (g_addr x = g_addr y /\ g_aug x mod P <= g_aug y mod P).
Proof. unfold reg_key_le. rewrite orb_true_iff, andb_true_iff, Z.ltb_lt, Z.eqb_eq, Z.leb_le. reflexivity. Qed.
Lemma rkey_gt x y : reg_key_le x y = false -> reg_key_le y x = true.
Proof.
  intros H. apply rkey_le. assert (N : ~ (reg_key_le x y = true)) by congruence. rewrite rkey_le in N. lia.
Qed.
Definition le_row (x y : regrow) : Prop := g_addr x < g_addr y \/ (g_addr x = g_addr y /\ g_aug x <= g_aug y).
Lemma general_pairs : ForallOrdPairs le_row general.
Proof.
  eapply pairs_impl; [|apply pairs_filter, (sort_pairs reg_key_le (fun x y => reg_key_le x y = true))].
  - intros x y Ix Iy H. apply rkey_le in H. destruct (aug_small x Ix) as [Ex _], (aug_small y Iy) as [Ey _]. rewrite Ex, Ey in H. exact H.
  - auto.
  - intros x y z. rewrite !rkey_le. lia.
  - apply pairs_all. intros x y _ _. split; [auto|apply rkey_gt].
Qed.
Lemma init_general a : 1 <= a <= 31 -> In (init_row val a) general.
Proof. intros H. apply in_general. split; [exact (rh_init _ _ _ HY a H)|cbn; lia]. Qed.
Lemma general_nonempty : exists d l, general = d :: l.
Proof. pose proof (init_general 1 ltac:(lia)) as I. destruct general as [|d l]; [destruct I|eauto]. Qed.
(** between two neighbours there is no other row *)
Lemma adj_gap x y : In (x, y) (adj general) -> In x general /\ In y general /\ le_row x y /\
  forall z, In z general -> le_row z x \/ le_row y z \/ z = x \/ z = y.
Proof.
  intros I. apply adj_split in I as (l1 & l2 & E). pose proof general_pairs as GP. rewrite E in GP |- *. destruct (pairs_mid _ _ _ _ _ GP) as (H1 & H2 & H3).
  split; [apply in_or_app; right; left; reflexivity|]. split; [apply in_or_app; right; right; left; reflexivity|]. split; [exact H1|].
  intros z Iz. apply in_app_or in Iz as [Iz|[<-|[<-|Iz]]]; auto; [left; apply H2, Iz|right; left; apply H3, Iz].
Qed.
Lemma steady_reg a c1 c2 : 1 <= a <= 31 -> 2 <= c1 <= c2 -> c2 <= T -> (forall c, c1 <= c < c2 -> ~ In (write_row val a c) ops) -> val c1 a = val c2 a.
Proof.
  intros A H HT N. replace c2 with (c1 + Z.of_nat (Z.to_nat (c2 - c1))) by lia. assert (L : (Z.to_nat (c2 - c1) <= Z.to_nat (c2 - c1))%nat) by lia. revert L.
  generalize (Z.to_nat (c2 - c1)) at 1 3 as n. induction n as [|n IH]; intros L; [rewrite Z.add_0_r; reflexivity|]. rewrite IH by lia.
  replace (c1 + Z.of_nat (S n)) with (c1 + Z.of_nat n + 1) by lia. destruct (Z.eq_dec (val (c1 + Z.of_nat n + 1) a) (val (c1 + Z.of_nat n) a)) as [E|NE]; [congruence|].
  exfalso. apply (N (c1 + Z.of_nat n)); [lia|]. apply (rh_change _ _ _ HY); auto; lia.
Qed.
(** neighbours *)
Lemma general_adj x y : In (x, y) (adj general) ->
  (g_addr y = g_addr x \/ g_addr y = g_addr x + 1) /\ (g_rw y = 1 -> g_addr y = g_addr x /\ 0 <= g_aug y - g_aug x < 2 ^ 32) /\
  (g_read y = 1 -> g_value y = g_value x) /\ (g_init y = 1 -> g_rw x = 1 -> g_addr x <> g_addr y).
Proof.
  intros I. destruct (adj_gap x y I) as (Ix & Iy & L & G). destruct (general_row x Ix) as [Ax Hx]. destruct (general_row y Iy) as [Ay Hy].
  pose proof (aug_small x Ix) as [_ Bx]. pose proof (aug_small y Iy) as [_ By].
  assert (SA : g_rw y = 1 -> g_addr y = g_addr x).
  { intros RW. destruct L as [L|[L _]]; [|auto]. exfalso. assert (By' : 4 <= g_aug y).
    { destruct Hy as [E|[C [E|E]]]; rewrite E in *; unfold g_rw, g_aug in *; cbn in *; lia. }
    destruct (G _ (init_general (g_addr y) Ay)) as [Q|[Q|[Q|Q]]]; unfold le_row in Q; try (cbn in Q; unfold g_aug in Q; cbn in Q; unfold g_aug in By'; lia).
    - rewrite <- Q in L. cbn in L. lia.
    - rewrite <- Q in By'. unfold g_aug in By'. cbn in By'. lia. }
  split; [|split; [|split]].
  - destruct L as [L|[L _]]; [|auto]. destruct (Z.eq_dec (g_addr y) (g_addr x + 1)) as [E|N]; [auto|]. exfalso.
    destruct (G _ (init_general (g_addr x + 1) ltac:(lia))) as [Q|[Q|[Q|Q]]]; unfold le_row in Q.
    + cbn in Q. lia.
    + cbn in Q. lia.
    + rewrite <- Q in L. apply (f_equal g_addr) in Q. cbn in Q. lia.
    + apply (f_equal g_addr) in Q. cbn in Q. lia.
  - intros RW. specialize (SA RW). split; [exact SA|]. destruct L as [L|[_ L]]; lia.
  - intros R. assert (RW : g_rw y = 1) by (destruct Hy as [E|[C [E|E]]]; rewrite E in *; unfold g_rw in *; cbn in *; lia). specialize (SA RW).
    destruct Hy as [E|[Cy [E|E]]]; rewrite E in R; try discriminate R. clear R RW.
    assert (NW : forall c, g_aug x < 2 * c + 1 < 2 * g_clk y -> ~ In (write_row val (g_addr y) c) ops).
    { intros c Hc J. assert (JG : In (write_row val (g_addr y) c) general) by (apply in_general; split; [exact J|cbn; lia]).
      assert (EA : g_aug y = 2 * g_clk y) by (rewrite E; unfold g_aug; cbn; lia).
      destruct (G _ JG) as [Q|[Q|[Q|Q]]].
      - destruct Q as [Q|[_ Q]]; [cbn in Q; lia|]. unfold g_aug in Q at 1. cbn in Q. lia.
      - destruct Q as [Q|[_ Q]]; [cbn in Q; lia|]. rewrite EA in Q. unfold g_aug in Q. cbn in Q. lia.
      - rewrite <- Q in Hc. unfold g_aug in Hc. cbn in Hc. lia.
      - rewrite E in Q. discriminate Q. }
    assert (LA : g_aug x <= 2 * g_clk y). { destruct L as [L|[_ L]]; [lia|]. rewrite E in L. unfold g_aug in L at 2. cbn in L. lia. }
    rewrite E. cbn [g_value read_row]. destruct Hx as [F|[Cx [F|F]]]; rewrite F in LA, NW |- *; unfold g_aug in LA, NW; cbn [g_value init_row read_row write_row g_clk g_write] in *.
    + rewrite <- SA. symmetry. apply steady_reg; try lia. intros c Hc. apply NW. lia.
    + rewrite <- SA. symmetry. apply steady_reg; try lia. intros c Hc. apply NW. lia.
    + rewrite <- SA. symmetry. apply steady_reg; try lia. intros c Hc. apply NW. lia.
  - intros I1 RW Q. destruct L as [L|[_ L]]; [lia|]. destruct Hy as [E|[C [E|E]]]; rewrite E in I1; try discriminate I1.
    rewrite E in L. destruct Hx as [F|[Cx [F|F]]]; rewrite F in RW, L; unfold g_rw, g_aug in *; cbn in *; try discriminate; lia.
Qed.
Lemma general_first x l : general = x :: l -> g_addr x = 1 /\ g_init x = 1 /\ g_rw x = 0.
Proof.
  intros E. pose proof general_pairs as GP. assert (I : In x general) by (rewrite E; left; reflexivity). pose proof (init_general 1 ltac:(lia)) as J. destruct (general_row x I) as [A H].
  assert (L : x = init_row val 1 \/ le_row x (init_row val 1)).
  { rewrite E in J, GP. destruct J as [J|J]; [auto|]. right. inversion GP as [|? ? F _]; subst. rewrite List.Forall_forall in F. apply F, J. }
  destruct L as [-> |L]; [cbn; auto|]. destruct L as [L|[L1 L2]]; [cbn in L; lia|]. cbn in L1. split; [exact L1|].
  destruct H as [-> |[C [F|F]]]; [cbn; auto| |]; rewrite F in L2; unfold g_aug in L2; cbn in L2; lia.
Qed.
Lemma general_last d l : general = d :: l -> g_addr (List.last (d :: l) d) = 31.
Proof.
  intros E. pose proof general_pairs as GP. pose proof (init_general 31 ltac:(lia)) as J. rewrite E in *. pose proof (@exists_last _ (d :: l) ltac:(discriminate)) as (l' & e & E'). rewrite E', List.last_last. rewrite E' in J, GP, E.
  assert (I : In e general) by (rewrite E; apply in_or_app; right; left; reflexivity). destruct (general_row e I) as [A _].
  apply in_app_or in J as [J|[-> |[]]]; [|reflexivity].
  assert (L : le_row (init_row val 31) e). { clear -GP J. induction l' as [|x l' IH]; [destruct J|]. cbn [app] in GP. inversion GP as [|? ? F GP']; subst. destruct J as [<-|J]; [|auto]. rewrite List.Forall_forall in F. apply F. apply in_or_app. right. left. reflexivity. }
  unfold le_row in L. cbn in L. lia.
Qed.
(** ** The padded table *)
Definition idle_reg (r : regrow) : regrow := mkReg (g_addr r) (g_value r) (g_clk r) 0 0 0.
Definition reg_table : list regrow := match general with [] => [] | d :: _ => pad_with (idle_reg (List.last general d)) general end.
Lemma reg_shape : exists x l e n, general = x :: l /\ (exists l', general = l' ++ [e]) /\ g_addr e = 31 /\ reg_table = general ++ repeat (idle_reg e) n.
Proof.
  destruct general_nonempty as (x & l & E). pose proof (general_last x l E) as L. pose proof (@exists_last _ (x :: l) ltac:(discriminate)) as (l' & e & E').
  exists x, l, e, (padded_len (length general) - length general)%nat. split; [exact E|]. split; [exists l'; congruence|]. rewrite E', List.last_last in L. split; [exact L|].
  unfold reg_table. rewrite E. cbv iota. unfold pad_with. do 3 f_equal. rewrite E', List.last_last. reflexivity.
Qed.
Inductive reg_pair : regrow -> regrow -> Prop :=
| rp_rows x y : In (x, y) (adj general) -> reg_pair x y
| rp_end e : In e general -> reg_pair e (idle_reg e)
| rp_pad e : In e general -> reg_pair (idle_reg e) (idle_reg e).
Lemma reg_pairs : exists x l, reg_table = x :: l /\ g_addr x = 1 /\ g_init x = 1 /\ g_rw x = 0 /\ g_addr (List.last (x :: l) x) = 31 /\
  (forall r r', In (r, r') (adj (x :: l)) -> reg_pair r r').
Proof.
  destruct reg_shape as (x & l & e & n & E & (l' & E') & A & ET). exists x, (l ++ repeat (idle_reg e) n). destruct (general_first x l E) as (F1 & F2 & F3).
  assert (Ie : In e general) by (rewrite E'; apply in_or_app; right; left; reflexivity).
  split; [rewrite ET, E; reflexivity|]. do 3 (split; [assumption|]). change (x :: l ++ repeat (idle_reg e) n) with ((x :: l) ++ repeat (idle_reg e) n). rewrite <- E. split.
  - destruct n as [|n]; [cbn [repeat]; rewrite app_nil_r, E', List.last_last; exact A|]. replace (S n) with (n + 1)%nat by lia. rewrite repeat_app. cbn [repeat]. rewrite app_assoc, List.last_last. exact A.
  - intros r r' I. destruct n as [|n]; [cbn [repeat] in I; rewrite app_nil_r in I; constructor; exact I|]. rewrite E' in I. cbn [repeat] in I. rewrite adj_app in I. apply in_app_iff in I as [I|[I|I]].
    + rewrite <- E' in I. constructor. exact I.
    + injection I as <- <-. constructor; exact Ie.
    + assert (R : In (r, r') (adj (repeat (idle_reg e) (S n) ++ [idle_reg e]))). { change (idle_reg e :: repeat (idle_reg e) n) with (repeat (idle_reg e) (S n)) in I. revert I. generalize (S n). clear. intros m. replace [idle_reg e] with (repeat (idle_reg e) 1) by reflexivity. rewrite <- repeat_app. induction m as [|m IH]; [intros []|]. destruct m as [|m]; [intros []|]. cbn [repeat app] in *. rewrite !adj_cons. intros [Q|Q]; [left; exact Q|right; apply IH, Q]. }
      apply adj_repeat in R as [-> R]. assert (r' = idle_reg e) as -> by (destruct R; assumption). apply rp_pad. exact Ie.
Qed.
Lemma reg_table_in r : In r reg_table -> exists e, In e general /\ (r = e \/ r = idle_reg e).
Proof.
  destruct reg_shape as (x & l & e & n & E & (l' & E') & A & ET). rewrite ET, in_app_iff. intros [I|I]; [eauto|]. apply repeat_spec in I. subst r.
  exists e. split; [rewrite E'; apply in_or_app; right; left; reflexivity|auto].
Qed.
Lemma general_in r : In r general -> In r reg_table.
Proof. destruct reg_shape as (x & l & e & n & E & _ & _ & ->). intros I. apply in_or_app. left. exact I. Qed.
Lemma row_bits r : In r general -> bit (g_init r) /\ bit (g_read r) /\ bit (g_write r) /\ g_used r = 1 /\ u32 (g_value r) /\ 0 <= g_clk r < 2 ^ 31 /\ (g_init r = 1 -> g_clk r = 0).
Proof.
  intros I. destruct (general_row r I) as [A H]. pose proof (rh_T _ _ _ HY) as HT. pose proof (fun c => rh_val _ _ _ HY c _ A) as V.
  destruct H as [E|[C [E|E]]]; rewrite E; unfold bit, g_used; cbn; repeat split; auto; try lia; try apply V; rewrite E in C; cbn in C; lia.
Qed.
Lemma reg_table_sat : trace_sat reg_air reg_table.
Proof.
  destruct reg_pairs as (x & l & E & A1 & _ & _ & A31 & PR). rewrite E. apply sat_pairs_ends.
  - cbn [a_first reg_air]. rewrite A1. repeat constructor.
  - cbn [a_last reg_air]. rewrite A31. repeat constructor.
  - intros r r' I. assert (J : In r reg_table).
    { rewrite E. apply adj_split in I as (l1 & l2 & Q). assert (J : In r ((x :: l) ++ [x])) by (rewrite Q; apply in_or_app; right; left; reflexivity). apply in_app_or in J as [J|[<-|[]]]; [exact J|left; reflexivity]. }
    destruct (reg_table_in r J) as (e & Ie & W). destruct (row_bits e Ie) as (B1 & B2 & B3 & B4 & _). unfold g_used in *. cbn [a_always reg_air]. unfold g_used.
    destruct W as [-> | ->]; repeat apply List.Forall_cons; try apply List.Forall_nil; apply bin_bit; try assumption; cbn; unfold bit; auto.
  - intros r r' I. specialize (PR r r' I). cbn [a_transition reg_air]. inversion PR as [y z J|e Ie|e Ie]; subst.
    + destruct (general_adj r r' J) as (H1 & H2 & H3 & _). destruct (adj_gap r r' J) as (Ir & Ir' & _). destruct (row_bits r Ir) as (_ & _ & _ & U & _). destruct (row_bits r' Ir') as (B1 & B2 & B3 & U' & _). rewrite U, U'.
      repeat apply List.Forall_cons; try apply List.Forall_nil.
      * reflexivity.
      * destruct B2 as [B2|B2]; [rewrite B2; reflexivity|]. rewrite (H3 B2). apply sub_same. reflexivity.
      * unfold g_used, g_rw in *. destruct (Z.eq_dec (g_read r' + g_write r') 1) as [Q|Q]; [rewrite (proj1 (H2 Q)); apply sub_same; reflexivity|]. replace (g_read r' + g_write r') with 0 by (unfold bit in *; lia). reflexivity.
      * destruct H1 as [-> | ->]; [rewrite Z.sub_diag; reflexivity|]. replace (g_addr r + 1 - g_addr r - 1) with 0 by lia. rewrite Z.mul_0_r. reflexivity.
    + cbn. repeat apply List.Forall_cons; try apply List.Forall_nil; try reflexivity. rewrite Z.sub_diag. reflexivity.
    + cbn. repeat apply List.Forall_cons; try apply List.Forall_nil; try reflexivity. rewrite Z.sub_diag. reflexivity.
Qed.
Lemma reg_table_rc : range_checked (reg_rc_looking reg_table).
Proof.
  intros v f I NF. unfold reg_rc_looking in I. apply in_map_iff in I as ([r r'] & Q & I). injection Q as <- <-. destruct reg_pairs as (x & l & E & _ & I1 & R0 & _ & PR). rewrite E in I. rewrite windows_adj in I.
  assert (C : In (r, r') (adj (x :: l)) \/ r' = x).
  { clear -I. assert (K : forall y, In (r, r') (adj (x :: (l ++ [y]))) -> In (r, r') (adj (x :: l)) \/ r' = y); [|exact (K x I)]. intros y. clear I. revert x. induction l as [|a l IH]; intros x; cbn [app].
    - rewrite adj_cons. intros [Q|[]]. injection Q as <- <-. auto.
    - rewrite !adj_cons. intros [Q|I]; [left; left; exact Q|]. destruct (IH a I) as [J|J]; [left; right; exact J|right; exact J]. }
  destruct C as [C| ->]; [|rewrite R0 in NF; exfalso; apply NF; reflexivity]. specialize (PR r r' C). inversion PR as [y z J|e Ie|e Ie]; subst; [|exfalso; apply NF; reflexivity|exfalso; apply NF; reflexivity].
  destruct (general_adj r r' J) as (_ & H2 & _). destruct (adj_gap r r' J) as (_ & Ir' & _). destruct (row_bits r' Ir') as (B1 & B2 & B3 & U' & _).
  assert (Q : g_rw r' = 1). { unfold g_used, g_rw in *. destruct (Z.eq_dec (g_read r' + g_write r') 1) as [Q|Q]; [exact Q|]. exfalso. apply NF. replace (g_read r' + g_write r') with 0 by (unfold bit in *; lia). reflexivity. }
  destruct (H2 Q) as [_ B]. rewrite Z.mod_small by (unfold P; lia). unfold u32. lia.
Qed.
Lemma reg_table_ok : max_rows reg_table -> reg_accepted reg_table.
Proof.
  intros MR. constructor; [exact reg_table_sat| |exact MR|exact reg_table_rc| |]; apply List.Forall_forall; intros r I; destruct (reg_table_in r I) as (e & Ie & W); destruct (row_bits e Ie) as (B1 & B2 & B3 & U & V & C & C0); destruct (general_row e Ie) as [A _].
  - unfold reg_canon. destruct W as [-> | ->]; cbn [idle_reg g_addr g_value g_clk g_init g_read g_write]; unfold u32, bit, canon, P in *; lia.
  - destruct W as [-> | ->]; [exact C0|intros Q; discriminate Q].
  - intros _. destruct W as [-> | ->]; cbn; lia.
Qed.
Lemma reg_table_first : reg_init_first reg_table.
Proof.
  destruct reg_shape as (x & l & e & n & E & _ & _ & ET). destruct (general_first x l E) as (_ & F2 & _). constructor.
  - intros r Q. rewrite ET, E in Q. injection Q as <-. exact F2.
  - intros i j r r' Q Q' RW I1 A. rewrite ET in Q, Q'.
    assert (G : forall k y, (general ++ repeat (idle_reg e) n) !! k = Some y -> g_used y <> 0 -> general !! k = Some y).
    { intros k y Qy U. destruct (general !! k) as [z|] eqn:Ez; [rewrite (lookup_app_l_Some _ _ _ _ Ez) in Qy; congruence|]. apply lookup_ge_None in Ez. rewrite lookup_app_r in Qy by exact Ez. apply elem_of_list_lookup_2, elem_of_list_In, repeat_spec in Qy. subst y. exfalso. apply U. reflexivity. }
    destruct (decide (g_used r = 0)) as [U|U].
    { assert (Ir : In r reg_table) by (rewrite ET; apply elem_of_list_In; eapply elem_of_list_lookup_2; exact Q). destruct (reg_table_in r Ir) as (z & Iz & [-> | ->]); [destruct (row_bits z Iz) as (_ & _ & _ & U' & _); lia|discriminate RW]. }
    destruct (decide (g_used r' = 0)) as [U'|U'].
    { assert (Ir : In r' reg_table) by (rewrite ET; apply elem_of_list_In; eapply elem_of_list_lookup_2; exact Q'). destruct (reg_table_in r' Ir) as (z & Iz & [-> | ->]); [destruct (row_bits z Iz) as (_ & _ & _ & U2 & _); lia|discriminate I1]. }
    apply G in Q; [|exact U]. apply G in Q'; [|exact U']. clear G.
    destruct (Nat.lt_total j i) as [H|[H|H]]; [exact H| |].
    + subst j. assert (r = r') as -> by congruence. assert (Ir : In r' general) by (apply elem_of_list_In; eapply elem_of_list_lookup_2; exact Q). destruct (row_bits r' Ir) as (B1 & B2 & B3 & V & _). unfold g_used, g_rw in *. unfold bit in *. lia.
    + exfalso. assert (L : le_row r r'). { pose proof general_pairs as GP. clear -GP Q Q' H. revert i j Q Q' H. induction GP as [|y t F GP IH]; intros i j Q Q' H; [discriminate|]. destruct i as [|i], j as [|j]; try lia.
        - cbn in Q, Q'. injection Q as <-. rewrite List.Forall_forall in F. apply F, elem_of_list_In. eapply elem_of_list_lookup_2. exact Q'.
        - cbn in Q, Q'. apply (IH i j); auto. lia. }
      destruct L as [L|[_ L]]; [lia|]. assert (Ir : In r general) by (apply elem_of_list_In; eapply elem_of_list_lookup_2; exact Q). assert (Ir' : In r' general) by (apply elem_of_list_In; eapply elem_of_list_lookup_2; exact Q').
      destruct (general_row r Ir) as [_ [F|[C [F|F]]]], (general_row r' Ir') as [_ [F'|[C' [F'|F']]]]; rewrite F in RW, L; rewrite F' in I1, L; unfold g_rw, g_aug in *; cbn in *; try discriminate; lia.
Qed.
End Table.
