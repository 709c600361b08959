(** The register tables hold exactly the accesses that are looked up. *)
From Coq Require Import Sorting.Permutation.
From Verif Require Import RegGenModel RegGenProofs MemGenProofs MemGenLook StateSpec DeviceSpec DeviceProofs TableProofs CpuTrace StateProofs StateWitness WordProofs WordProps PoseidonSpec PoseidonGen.
Open Scope Z_scope.

Definition row_of (t : list Z) : regrow :=
  match t with [c; o; a; v] => mkReg (a mod P) (v mod P) (c mod P) (b2z (o =? 0)) (b2z (o =? 1)) (b2z (o =? 2)) | _ => mkReg 0 0 0 0 0 0 end.
(** an access to a register: (clock, operation, register, value); x0 holds zero *)
Definition access_ok (e : list Z * Z) : Prop :=
  bit (snd e) /\ exists c o a v, fst e = [c; o; a; v] /\ (o = 0 \/ o = 1 \/ o = 2) /\ (snd e = 1 -> a mod P = 0 -> (o = 1 /\ v mod P = 0) \/ o = 2).
Definition ops_of (E : entries) : list regrow := flat_map (fun e => if snd e =? 1 then [row_of (fst e)] else []) E.
Definition reg_entry (r : regrow) : list Z * Z := ([g_clk r; 0 * g_init r + 1 * g_read r + 2 * g_write r; g_addr r; g_value r], g_read r + g_write r + g_init r).
Lemma in_ops E r : In r (ops_of E) <-> exists t, In (t, 1) E /\ r = row_of t.
Proof.
  unfold ops_of. rewrite in_flat_map. split.
  - intros ([t w] & I & J). cbn [fst snd] in J. destruct (Z.eqb_spec w 1) as [-> |]; [|destruct J]. destruct J as [<-|[]]. eauto.
  - intros (t & I & ->). exists (t, 1). split; [exact I|]. left. reflexivity.
Qed.
Lemma collect_res_map {A B} (f : A -> res (list B)) g l : (forall x, In x l -> f x = Ok (g x)) -> collect_res f l = Ok (flat_map g l).
Proof. induction l as [|x l IH]; intros H; [reflexivity|]. cbn [collect_res flat_map]. rewrite (H x (or_introl eq_refl)). cbn [rbind]. rewrite IH by (intros y I; apply H; right; exact I). reflexivity. Qed.
Lemma extract_ok E : Forall access_ok E -> collect_res extract_row E = Ok (ops_of E).
Proof.
  intros F. apply collect_res_map. rewrite List.Forall_forall in F. intros [t w] I. destruct (F _ I) as (B & c & o & a & v & Et & O & _). cbn [fst snd] in *. subst t. unfold extract_row. cbn [fst snd].
  destruct B as [-> | ->]; [reflexivity|]. change (1 mod P =? 1) with true. change (1 =? 1) with true. cbv iota. destruct O as [-> |[-> | ->]]; reflexivity.
Qed.
Lemma entry_key v c o a x : o = 0 \/ o = 1 \/ o = 2 -> mult_of v [reg_entry (row_of [c; o; a; x])] = mult_of v [([c; o; a; x], 1)].
Proof.
  intros O. unfold reg_entry, row_of. rewrite !mult_one. cbn [g_clk g_init g_read g_write g_addr g_value].
  assert (K : forall y, tuple_key [c mod P; y; a mod P; x mod P] = tuple_key [c; y; a; x]) by (intros y; unfold tuple_key; cbn [map]; rewrite !Z.mod_mod by discriminate; reflexivity).
  destruct O as [-> |[-> | ->]]; cbn [Z.eqb Pos.eqb b2z]; rewrite K; cbn; reflexivity.
Qed.
Lemma ops_mult v E : Forall access_ok E -> mult_of v (map reg_entry (ops_of E)) = mult_of v E.
Proof.
  induction 1 as [|[t w] E (B & c & o & a & x & Et & O & _) F IH]; [reflexivity|]. cbn [fst snd] in *. subst t. unfold ops_of in *. cbn [flat_map fst snd]. rewrite map_app, mult_of_app, IH.
  change (([c; o; a; x], w) :: E) with ([([c; o; a; x], w)] ++ E). rewrite mult_of_app. f_equal. destruct B as [-> | ->]; cbn [Z.eqb Pos.eqb map]; [rewrite mult_one; destruct (decide _); reflexivity|]. apply entry_key, O.
Qed.
Lemma mult_perm v l l' : Permutation l l' -> mult_of v l = mult_of v l'.
Proof.
  induction 1 as [|[t w] l l' H IH|[t w] [t' w'] l|l1 l2 l3 H1 IH1 H2 IH2]; [reflexivity| | |congruence].
  - rewrite !mult_of_cons, IH. reflexivity.
  - rewrite !mult_of_cons. lia.
Qed.
Lemma mult_split {A} v (g : A -> list Z * Z) (f : A -> bool) l : mult_of v (map g l) = mult_of v (map g (List.filter f l)) + mult_of v (map g (List.filter (fun x => negb (f x)) l)).
Proof.
  induction l as [|x l IH]; [reflexivity|]. cbn [map List.filter]. destruct (g x) as [t w] eqn:E. rewrite mult_of_cons, IH. destruct (f x); cbn [negb map]; rewrite E, mult_of_cons; lia.
Qed.
Lemma mult_pad {R} v (g : R -> list Z * Z) d t : snd (g d) = 0 -> mult_of v (map g (pad_with d t)) = mult_of v (map g t).
Proof.
  intros Z0. unfold pad_with. rewrite map_app, mult_of_app. rewrite (mult_of_zero v (map g (repeat d _))); [lia|]. intros e I. apply in_map_iff in I as (y & <- & I). apply repeat_spec in I. subst y. exact Z0.
Qed.
Lemma mult_same {A} v (g h : A -> list Z * Z) l : (forall x, In x l -> mult_of v [g x] = mult_of v [h x]) -> mult_of v (map g l) = mult_of v (map h l).
Proof.
  induction l as [|x l IH]; intros H; [reflexivity|]. cbn [map]. change (g x :: map g l) with ([g x] ++ map g l). change (h x :: map h l) with ([h x] ++ map h l). rewrite !mult_of_app, (H x (or_introl eq_refl)), IH; [reflexivity|]. intros y I. apply H. right. exact I.
Qed.
(** ** Generation from the entries *)
Section Gen.
Context E val T (F : Forall access_ok E) (HY : rhistory (ops_of E) val T).
Let ops := ops_of E.
Definition zeros_read : list zread := pad_with (mkZRead 0 0) (map zread_of (List.filter (fun r => g_write r =? 0) (List.filter (fun r => g_addr r =? 0) (sort_by reg_key_le ops)))).
Definition zeros_write : list zwrite := pad_with (mkZWrite 0 0 0) (map zwrite_of (List.filter (fun r => negb (g_write r =? 0)) (List.filter (fun r => g_addr r =? 0) (sort_by reg_key_le ops)))).
Lemma reg_generated : generate_register_trace E = Ok (zeros_read, zeros_write, reg_table ops).
Proof.
  unfold generate_register_trace. rewrite (extract_ok E F). cbn [rbind]. fold ops. fold (general ops). destruct (general_nonempty _ _ _ HY) as (d & l & Q). unfold reg_table. fold ops in Q. rewrite Q. reflexivity.
Qed.
Lemma zero_row r : In r ops -> g_addr r = 0 -> (g_init r = 0 /\ g_read r = 1 /\ g_write r = 0 /\ g_value r = 0) \/ (g_init r = 0 /\ g_read r = 0 /\ g_write r = 1).
Proof.
  intros I A. apply in_ops in I as (t & I & ->). rewrite List.Forall_forall in F. destruct (F _ I) as (_ & c & o & a & v & Et & _ & Z0). cbn [fst snd] in *. subst t. cbn in A. destruct (Z0 eq_refl A) as [[-> V]| ->]; cbn; auto.
Qed.
Lemma reg_ctl v : mult_of v (reg_looked (reg_table ops) ++ zread_looked zeros_read ++ zwrite_looked zeros_write) = mult_of v E.
Proof.
  rewrite <- (ops_mult v E F). fold ops. rewrite (mult_perm v (map reg_entry ops) (map reg_entry (sort_by reg_key_le ops))) by (apply Permutation_map, Permutation_sym, sort_perm).
  rewrite (mult_split v reg_entry (fun r => g_addr r =? 0)). rewrite (mult_split v reg_entry (fun r => g_write r =? 0) (List.filter (fun r => g_addr r =? 0) _)). rewrite !mult_of_app.
  assert (G : mult_of v (reg_looked (reg_table ops)) = mult_of v (map reg_entry (List.filter (fun r => negb (g_addr r =? 0)) (sort_by reg_key_le ops)))).
  { fold (general ops). unfold reg_table. destruct (general_nonempty _ _ _ HY) as (d & l & Q). fold ops in Q. rewrite Q. cbv iota. unfold reg_looked. apply (mult_pad v reg_entry). reflexivity. }
  rewrite G. assert (ZR : mult_of v (zread_looked zeros_read) = mult_of v (map reg_entry (List.filter (fun r => g_write r =? 0) (List.filter (fun r => g_addr r =? 0) (sort_by reg_key_le ops))))).
  { unfold zread_looked, zeros_read. rewrite (mult_pad v (fun r => ([zr_clk r; 1; 0; 0], zr_used r))) by reflexivity. rewrite map_map. apply mult_same. intros r I. apply filter_In in I as [I W]. apply filter_In in I as [I A]. apply sort_in in I. apply Z.eqb_eq in A, W.
    destruct (zero_row r I A) as [(Q1 & Q2 & Q3 & Q4)|(Q1 & Q2 & Q3)]; [|lia]. unfold reg_entry. rewrite A, Q1, Q2, Q3, Q4. reflexivity. }
  assert (ZW : mult_of v (zwrite_looked zeros_write) = mult_of v (map reg_entry (List.filter (fun r => negb (g_write r =? 0)) (List.filter (fun r => g_addr r =? 0) (sort_by reg_key_le ops))))).
  { unfold zwrite_looked, zeros_write. rewrite (mult_pad v (fun r => ([zw_clk r; 2; 0; zw_value r], zw_used r))) by reflexivity. rewrite map_map. apply mult_same. intros r I. apply filter_In in I as [I W]. apply filter_In in I as [I A]. apply sort_in in I. apply Z.eqb_eq in A. apply negb_true_iff, Z.eqb_neq in W.
    destruct (zero_row r I A) as [(Q1 & Q2 & Q3 & Q4)|(Q1 & Q2 & Q3)]; [lia|]. unfold reg_entry. rewrite A, Q1, Q2, Q3. reflexivity. }
  rewrite ZR, ZW. lia.
Qed.
End Gen.
